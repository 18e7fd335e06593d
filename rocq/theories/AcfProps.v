(** Theorems about the autocorrelation: C48, C75, C76, C77, C78. *)
From Coq Require Import Reals List Arith Lia Lra.
From Coquelicot Require Import Coquelicot.
From Verif Require Import XR AcfModel AcfSpec KernelModel KernelProofs AcfProofs.
Import ListNotations.
Open Scope R_scope.

Lemma cons_eq {A} (a b : A) l m : a = b -> l = m -> a :: l = b :: m.
Proof. congruence. Qed.

(** * C48 *)

Theorem C48_next_pow_two : forall n, (1 <= n)%nat ->
  (n <= next_pow_two n < 2 * n)%nat /\ exists j, next_pow_two n = (2 ^ j)%nat.
Proof.
  intros n Hn. destruct (next_pow_two_spec n) as (A & B & C & D). split; [|exact D].
  split; [exact A|]. destruct C as [->|C]; lia.
Qed.
Print Assumptions C48_next_pow_two.
Example C48_next_pow_two_ex : next_pow_two 1000 = 1024%nat /\ next_pow_two 1024 = 1024%nat.
Proof. split; vm_compute; reflexivity. Qed.

Lemma acf_entry x L0 k : (k < Nat.min L0 (length x))%nat ->
  nth_error (autocorrelation x L0) k
  = Some (fdiv (raw_acf x (2 * next_pow_two (Nat.min L0 (length x))) k) (raw_acf x (2 * next_pow_two (Nat.min L0 (length x))) 0)).
Proof.
  intros Hk. unfold autocorrelation. cbv zeta. erewrite map_nth_error; [reflexivity|].
  rewrite nth_error_nth' with (d := 0%nat) by (rewrite seq_length; exact Hk). rewrite seq_nth by exact Hk. reflexivity.
Qed.

(** A lag is right when the series and the lag fit in twice the next power of two
    of the number of lags.  Missing: the other lags, see the refutation. *)
Theorem C48_fits_partial : forall x max_lag k, (k < max_lag)%nat -> (k < length x)%nat -> lag_sum x 0 <> 0 ->
  (length x + k <= 2 * next_pow_two (Nat.min max_lag (length x)))%nat ->
  nth_error (autocorrelation x max_lag) k = Some (Fin (rho x k)).
Proof.
  intros x L k Hk Hkl Hx Hfit. rewrite acf_entry by lia.
  rewrite !raw_acf_lag by lia. unfold fdiv. destruct (Req_EM_T (lag_sum x 0) 0); [contradiction|]. reflexivity.
Qed.
Print Assumptions C48_fits_partial.

Lemma acf_short x max_lag : (length x <= max_lag)%nat -> lag_sum x 0 <> 0 ->
  autocorrelation x max_lag = map (fun k => Fin (rho x k)) (seq 0 (length x)).
Proof.
  intros Hl Hx. unfold autocorrelation. cbv zeta. rewrite Nat.min_r by exact Hl. apply map_ext_in. intros k Hk.
  apply in_seq in Hk. destruct (next_pow_two_spec (length x)) as (A & B & _).
  rewrite !raw_acf_lag by lia. unfold fdiv. destruct (Req_EM_T (lag_sum x 0) 0); [contradiction|]. reflexivity.
Qed.

(** Every lag is right when all lags of the series are asked for *)
Theorem C48_short_partial : forall x max_lag, (length x <= max_lag)%nat -> lag_sum x 0 <> 0 ->
  length (autocorrelation x max_lag) = length x
  /\ forall k, (k < length x)%nat -> nth_error (autocorrelation x max_lag) k = Some (Fin (rho x k)).
Proof.
  intros x L Hl Hx. rewrite acf_short by assumption. split; [rewrite map_length, seq_length; reflexivity|].
  intros k Hk. erewrite map_nth_error; [reflexivity|]. rewrite nth_error_nth' with (d := 0%nat) by (rewrite seq_length; exact Hk).
  rewrite seq_nth by exact Hk. reflexivity.
Qed.
Print Assumptions C48_short_partial.

Lemma ramp_lags : lag_sum [0; 1; 2; 3] 0 = 5 /\ lag_sum [0; 1; 2; 3] 1 = 5 / 4 /\ lag_sum [0; 1; 2; 3] 2 = - 3 / 2
  /\ lag_sum [0; 1; 2; 3] 3 = - 9 / 4.
Proof.
  unfold lag_sum, sum_of, dev, average. cbn [length Nat.sub seq map fold_right nth Nat.add INR].
  repeat split; field.
Qed.
Example C48_fits_partial_ex : nth_error (autocorrelation [0; 1; 2; 3] 3) 1 = Some (Fin (1 / 4)).
Proof.
  destruct ramp_lags as (A & B & _). rewrite C48_fits_partial.
  - unfold rho. rewrite A, B. do 2 f_equal. field.
  - lia.
  - cbn; lia.
  - rewrite A. lra.
  - cbn. lia.
Qed.
Example C48_short_partial_ex : nth_error (autocorrelation [0; 1; 2; 3] 1000) 3 = Some (Fin (- 9 / 20)).
Proof.
  destruct ramp_lags as (A & _ & _ & B). destruct (C48_short_partial [0; 1; 2; 3] 1000) as [_ H]; [cbn [length]; lia|lra|].
  rewrite H by (cbn; lia). unfold rho. rewrite A, B. do 2 f_equal. field.
Qed.

(** A longer series wraps around: the last entry meets the first at lag one *)
Theorem C48_wrap_refuted : exists x max_lag k,
  (k < max_lag)%nat /\ (k < length x)%nat /\ lag_sum x 0 <> 0
  /\ nth_error (autocorrelation x max_lag) k <> Some (Fin (rho x k)).
Proof.
  exists [1; 0; 0; - 1], 2%nat, 1%nat. split; [lia|]. split; [cbn; lia|].
  assert (A : lag_sum [1; 0; 0; - 1] 0 = 2) by (unfold lag_sum, sum_of, dev, average; cbn [length Nat.sub seq map fold_right nth Nat.add INR]; field).
  assert (B : lag_sum [1; 0; 0; - 1] 1 = 0) by (unfold lag_sum, sum_of, dev, average; cbn [length Nat.sub seq map fold_right nth Nat.add INR]; field).
  split; [lra|]. rewrite acf_entry by (cbn; lia). unfold rho. rewrite A, B.
  cbn [length]. change (2 * next_pow_two (Nat.min 2 4))%nat with 4%nat.
  assert (Hc : centred [1; 0; 0; - 1] = [1; 0; 0; - 1]).
  { assert (Hm : mean [1; 0; 0; - 1] = 0) by (unfold mean, total; cbn [fold_right length INR]; field).
    unfold centred. rewrite Hm. cbn [map]. rewrite !Rminus_0_r. reflexivity. }
  rewrite !raw_acf_circular by lia. rewrite Hc. cbn [vsum Nat.add]. 
  change (1 mod 4)%nat with 1%nat. change (2 mod 4)%nat with 2%nat. change (3 mod 4)%nat with 3%nat. change (4 mod 4)%nat with 0%nat.
  change (0 mod 4)%nat with 0%nat. cbn [nth].
  intros E. injection E as E. unfold fdiv in E. destruct (Req_EM_T _ 0) as [H|H]; [lra|]. injection E as E.
  apply (f_equal (fun t => t * 2)) in E. match type of E with ?a / ?b * _ = _ => replace b with 2 in E by ring end. lra.
Qed.
Print Assumptions C48_wrap_refuted.

(** A constant series has no autocorrelation: every entry is NaN. *)
Theorem C48_constant_nan : forall c n max_lag k, (k < max_lag)%nat -> (k < n)%nat ->
  nth_error (autocorrelation (repeat c n) max_lag) k = Some NaN.
Proof.
  intros c n L k Hk Hn. assert (Hc : forall i, nth i (centred (repeat c n)) 0 = 0).
  { intros i. destruct (Nat.lt_ge_cases i n) as [H|H].
    - rewrite nth_centred by (rewrite repeat_length; exact H). unfold dev, average. rewrite (nth_indep (repeat c n) 0 c), nth_repeat by (rewrite repeat_length; exact H).
      rewrite repeat_length. replace (fold_right Rplus 0 (repeat c n)) with (INR n * c).
      + field. apply not_0_INR. lia.
      + clear. induction n; [cbn; ring|]. cbn [repeat fold_right]. rewrite <- IHn, S_INR. ring.
    - apply nth_centred_out. rewrite repeat_length. exact H. }
  assert (Hr : forall N m, (0 < N)%nat -> raw_acf (repeat c n) N m = 0).
  { intros N m HN. rewrite raw_acf_circular by exact HN. rewrite (vsum_ext N _ (fun _ => 0)); [apply vsum_0|].
    intros l Hl. rewrite Hc. ring. }
  rewrite acf_entry by (rewrite repeat_length; lia).
  assert (HN : (0 < 2 * next_pow_two (Nat.min L (length (repeat c n))))%nat).
  { destruct (next_pow_two_spec (Nat.min L (length (repeat c n)))) as (_ & B & _). lia. }
  rewrite !Hr by exact HN. unfold fdiv. destruct (Req_EM_T 0 0); [|contradiction].
  destruct (Rlt_dec 0 0); [lra|reflexivity].
Qed.
Print Assumptions C48_constant_nan.
Example C48_constant_nan_ex : nth_error (autocorrelation [7; 7; 7] 2) 1 = Some NaN.
Proof. apply (C48_constant_nan 7 3 2 1); lia. Qed.

(** * C75 *)

(** Every entry is between -1 and 1 and the first is 1, also where the series wraps *)
Theorem C75_bounds : forall x max_lag k v, nth_error (autocorrelation x max_lag) k = Some (Fin v) ->
  -1 <= v <= 1 /\ nth_error (autocorrelation x max_lag) 0 = Some (Fin 1).
Proof.
  intros x L k v Hv. assert (Hk : (k < Nat.min L (length x))%nat).
  { assert (H : nth_error (autocorrelation x L) k <> None) by (rewrite Hv; discriminate). apply nth_error_Some in H.
    unfold autocorrelation in H. cbv zeta in H. rewrite map_length, seq_length in H. exact H. }
  rewrite acf_entry in Hv by exact Hk. rewrite acf_entry by lia.
  assert (HN : (0 < 2 * next_pow_two (Nat.min L (length x)))%nat).
  { destruct (next_pow_two_spec (Nat.min L (length x))) as (_ & B & _). lia. }
  set (N := (2 * next_pow_two (Nat.min L (length x)))%nat) in *.
  assert (B := raw_acf_bound x N k HN). injection Hv as Hv. unfold fdiv in *.
  destruct (Req_EM_T (raw_acf x N 0) 0) as [E|E].
  { destruct (Rlt_dec 0 (raw_acf x N k)); [discriminate|]. destruct (Rlt_dec (raw_acf x N k) 0); discriminate. }
  split; [|do 2 f_equal; field; exact E]. injection Hv as <-.
  apply Rcomplements.Rabs_le_between in B. assert (Hp : 0 < raw_acf x N 0) by lra.
  split; apply (Rmult_le_reg_r (raw_acf x N 0)); try exact Hp; unfold Rdiv; rewrite Rmult_assoc, Rinv_l by exact E; lra.
Qed.
Print Assumptions C75_bounds.

(** Location and scale of the series do not matter *)
Theorem C75_affine : forall x c e max_lag, c <> 0 ->
  autocorrelation (map (fun a => c * a + e) x) max_lag = autocorrelation x max_lag.
Proof.
  intros x c e L Hc. unfold autocorrelation. cbv zeta. rewrite map_length. apply map_ext. intros k.
  destruct (next_pow_two_spec (Nat.min L (length x))) as (_ & B & _).
  change (map (fun a => c * a + e) x) with (affine c e x).
  rewrite !raw_acf_affine by lia. apply fdiv_scale. assert (H := pow2_gt_0 c Hc). exact H.
Qed.
Print Assumptions C75_affine.

Example C75_bounds_ex : nth_error (autocorrelation [0; 1; 2; 3] 1000) 0 = Some (Fin 1).
Proof. apply (C75_bounds _ _ _ _ C48_short_partial_ex). Qed.
Example C75_affine_ex : nth_error (autocorrelation [5; 3; 1; - 1] 1000) 3 = Some (Fin (- 9 / 20)).
Proof.
  rewrite <- C48_short_partial_ex, <- (C75_affine [0; 1; 2; 3] (-2) 5 1000) by lra.
  f_equal. f_equal. cbn [map]. repeat (apply cons_eq; [ring|]). reflexivity.
Qed.

(** * C76 *)

Lemma iats_short x max_lag : (length x <= max_lag)%nat -> lag_sum x 0 <> 0 ->
  iats_all (autocorrelation x max_lag) = map (fun k => Fin (tau x (S k))) (seq 0 (length x - 1)).
Proof.
  intros Hl Hx. rewrite acf_short by assumption. unfold iats_all. destruct (length x) as [|n]; [reflexivity|].
  cbn [seq map tl]. replace (S n - 1)%nat with n by lia.
  rewrite <- seq_shift, map_map. rewrite <- (map_map (fun k => rho x (S k)) Fin), cumsum_fin, map_length, seq_length, map_map.
  apply map_ext_in. intros k Hk. apply in_seq in Hk. unfold tau. rewrite sum_of_vsum. cbn [xmul xadd]. do 4 f_equal. rewrite Rplus_0_l.
  apply vsum_ext. intros i Hi. rewrite (nth_indep _ 0 (rho x (S 0))) by (rewrite map_length, seq_length; lia).
  rewrite (map_nth (fun k => rho x (S k))), seq_nth by lia. reflexivity.
Qed.

(** With a given lag (counting from 0, beyond the end the last one) *)
Theorem C76_given_lag : forall x max_lag m, (length x <= max_lag)%nat -> (2 <= length x)%nat -> lag_sum x 0 <> 0 ->
  integrated_autocorrelation_time x (Some m) max_lag = Some (Fin (tau x (S (Nat.min m (length x - 2))))).
Proof.
  intros x L m Hl H2 Hx. unfold integrated_autocorrelation_time. cbv zeta. rewrite iats_short by assumption.
  rewrite map_length, seq_length. erewrite map_nth_error; [reflexivity|].
  rewrite nth_error_nth' with (d := 0%nat) by (rewrite seq_length; lia). rewrite seq_nth by lia. f_equal. lia.
Qed.
Print Assumptions C76_given_lag.

Lemma tau_all x : (2 <= length x)%nat -> lag_sum x 0 <> 0 -> tau x (length x - 1) = 0.
Proof.
  intros H2 Hx. unfold tau, rho. rewrite sum_of_vsum.
  rewrite (vsum_ext _ _ (fun j => / lag_sum x 0 * lag_sum x (S j))) by (intros; unfold Rdiv; ring). rewrite vsum_scal.
  assert (A := lag_sums_all x ltac:(lia)). apply (Rmult_eq_reg_r (lag_sum x 0)); [|exact Hx].
  rewrite Rmult_0_l. transitivity (lag_sum x 0 + 2 * vsum (length x - 1) (fun k => lag_sum x (S k))); [field; exact Hx|exact A].
Qed.

Lemma window_spec x max_lag : (length x <= max_lag)%nat -> (2 <= length x)%nat -> lag_sum x 0 <> 0 ->
  sokal_window x (S (window (iats_all (autocorrelation x max_lag)))) /\ (window (iats_all (autocorrelation x max_lag)) < length x - 1)%nat.
Proof.
  intros Hl H2 Hx. rewrite iats_short by assumption. unfold window, argmax. rewrite map_length, seq_length.
  set (n := (length x - 1)%nat). set (l := map _ (combine _ _)).
  assert (Hl' : forall j, (j < n)%nat -> nth_error l j = Some (Rltb 0 (INR (S j) - 5 * tau x (S j)))).
  { intros j Hj. unfold l. erewrite map_nth_error.
    2:{ rewrite nth_error_nth' with (d := (0%nat, Fin 0)) by (rewrite combine_length, map_length, !seq_length; lia).
        rewrite combine_nth by (rewrite map_length, !seq_length; reflexivity).
        rewrite (nth_indep _ (Fin 0) (Fin (tau x (S 0)))) by (rewrite map_length, seq_length; lia).
        rewrite (map_nth (fun k => Fin (tau x (S k)))), !seq_nth by lia. reflexivity. }
    cbn [fst snd xmul xsub xadd xopp xltb]. reflexivity. }
  assert (S1 := first_true_spec l). destruct (first_true l) as [i|].
  - destruct S1 as [A B]. assert (Hi : (i < n)%nat).
    { assert (H : nth_error l i <> None) by (rewrite A; discriminate). apply nth_error_Some in H. unfold l in H.
      rewrite map_length, combine_length, map_length, !seq_length in H. lia. }
    split; [|exact Hi]. split; [lia|]. rewrite Hl' in A by exact Hi. apply (f_equal (fun o => match o with Some b => b | None => false end)) in A. cbv beta iota in A. apply Rltb_true in A. split; [lra|].
    intros [|m] Hm; [lia|]. specialize (B m ltac:(lia)). rewrite Hl' in B by lia. apply (f_equal (fun o => match o with Some b => b | None => true end)) in B. cbv beta iota in B. apply Rltb_false in B. lra.
  - exfalso. assert (Hlen : length l = n) by (unfold l; rewrite map_length, combine_length, map_length, !seq_length; lia).
    specialize (S1 (n - 1)%nat ltac:(unfold n in *; lia)). rewrite Hl' in S1 by (unfold n; lia). apply (f_equal (fun o => match o with Some b => b | None => true end)) in S1. cbv beta iota in S1. apply Rltb_false in S1.
    replace (S (n - 1)) with (length x - 1)%nat in S1 by (unfold n; lia). rewrite tau_all in S1 by assumption.
    assert (0 < INR (length x - 1)) by (apply lt_0_INR; lia). lra.
Qed.

(** Without a given lag and with all lags asked for: there always is a window and
    the result is the time up to it.  Missing: longer series, see below. *)
Theorem C76_window_partial : forall x max_lag, (length x <= max_lag)%nat -> (2 <= length x)%nat -> lag_sum x 0 <> 0 ->
  exists M, sokal_window x M /\ integrated_autocorrelation_time x None max_lag = Some (Fin (tau x M)).
Proof.
  intros x L Hl H2 Hx. destruct (window_spec x L Hl H2 Hx) as [A B].
  exists (S (window (iats_all (autocorrelation x L)))). split; [exact A|].
  unfold integrated_autocorrelation_time. cbv zeta. set (w := window _) in *. rewrite iats_short by assumption.
  rewrite map_length, seq_length. erewrite map_nth_error; [reflexivity|].
  rewrite nth_error_nth' with (d := 0%nat) by (rewrite seq_length; lia). rewrite seq_nth by lia. f_equal. lia.
Qed.
Print Assumptions C76_window_partial.

Lemma ramp_tau : tau [0; 1; 2; 3] 1 = 3 / 2 /\ tau [0; 1; 2; 3] 2 = 9 / 10 /\ tau [0; 1; 2; 3] 3 = 0.
Proof.
  destruct ramp_lags as (A & B & C & D). unfold tau, rho, sum_of. cbn [seq map fold_right]. rewrite A, B, C, D. repeat split; field.
Qed.
Example C76_given_lag_ex : integrated_autocorrelation_time [0; 1; 2; 3] (Some 1%nat) 1000 = Some (Fin (9 / 10)).
Proof.
  destruct ramp_lags as (A & _). destruct ramp_tau as (_ & B & _).
  rewrite C76_given_lag; [|cbn [length]; lia|cbn [length]; lia|lra]. cbn [length Nat.min Nat.sub]. rewrite B. reflexivity.
Qed.
Example C76_window_partial_ex : integrated_autocorrelation_time [0; 1; 2; 3] None 1000 = Some (Fin 0).
Proof.
  destruct ramp_lags as (A & _). destruct ramp_tau as (T1 & T2 & T3).
  destruct (C76_window_partial [0; 1; 2; 3] 1000) as (M & (H1 & H2 & H3) & E); [cbn [length]; lia|cbn [length]; lia|lra|].
  rewrite E. destruct M as [|[|[|[|M]]]].
  - lia.
  - rewrite T1 in H2. cbn in H2. lra.
  - rewrite T2 in H2. cbn in H2. lra.
  - rewrite T3. reflexivity.
  - specialize (H3 3%nat ltac:(lia)). rewrite T3 in H3. cbn in H3. lra.
Qed.

(** Fewer lags than the series has: when no lag qualifies the time up to the first
    lag is returned, not up to the last one. *)
Theorem C76_no_window_refuted : exists x max_lag,
  (max_lag < length x)%nat /\ lag_sum x 0 <> 0
  /\ (forall k, (k < max_lag)%nat -> nth_error (autocorrelation x max_lag) k = Some (Fin (rho x k)))
  /\ (forall M, (M < max_lag)%nat -> ~ sokal_window x M)
  /\ integrated_autocorrelation_time x None max_lag <> Some (Fin (tau x (max_lag - 1)))
  /\ integrated_autocorrelation_time x None max_lag = Some (Fin (tau x 1)).
Proof.
  exists [0; 1; 2; 3], 3%nat. destruct ramp_lags as (A & B & C & _). destruct ramp_tau as (T1 & T2 & _).
  assert (Hk : forall k, (k < 3)%nat -> nth_error (autocorrelation [0; 1; 2; 3] 3) k = Some (Fin (rho [0; 1; 2; 3] k))).
  { intros k Hk. apply C48_fits_partial; [exact Hk|cbn [length]; lia|lra|]. cbn [length]. 
    change (2 * next_pow_two (Nat.min 3 4))%nat with 8%nat. lia. }
  assert (Hl : length (autocorrelation [0; 1; 2; 3] 3) = 3%nat) by (unfold autocorrelation; cbv zeta; rewrite map_length, seq_length; reflexivity).
  assert (Ea : autocorrelation [0; 1; 2; 3] 3 = [Fin 1; Fin (1 / 4); Fin (- 3 / 10)]).
  { destruct (autocorrelation [0; 1; 2; 3] 3) as [|a [|b [|c [|]]]]; try discriminate Hl.
    assert (H0 := Hk 0%nat ltac:(lia)). assert (H1 := Hk 1%nat ltac:(lia)). assert (H2 := Hk 2%nat ltac:(lia)). cbn [nth_error] in *.
    injection H0 as ->. injection H1 as ->. injection H2 as ->. unfold rho. rewrite A, B, C.
    repeat (apply cons_eq; [f_equal; field|]). reflexivity. }
  assert (Ei : integrated_autocorrelation_time [0; 1; 2; 3] None 3 = Some (Fin (3 / 2))).
  { unfold integrated_autocorrelation_time. cbv zeta. rewrite Ea. unfold iats_all. cbn [tl cumsum map xadd xmul].
    unfold window. cbn [length seq combine map fst snd]. cbn [xmul xsub xadd xopp xltb INR].
    assert (F1 : Rltb 0 (1 + - (5 * (1 + 2 * (0 + 1 / 4)))) = false) by (apply Rltb_false; lra).
    assert (F2 : Rltb 0 (1 + 1 + - (5 * (1 + 2 * (0 + 1 / 4 + - 3 / 10)))) = false) by (apply Rltb_false; lra).
    rewrite F1, F2. cbn. do 2 f_equal. field. }
  split; [cbn; lia|]. split; [lra|]. split; [exact Hk|]. split; [|split].
  - intros [|[|[|M]]] HM (H1 & H2 & _); [lia| | |lia].
    + rewrite T1 in H2. cbn in H2. lra.
    + rewrite T2 in H2. cbn in H2. lra.
  - rewrite Ei. change (3 - 1)%nat with 2%nat. rewrite T2. intros E. injection E as E. lra.
  - rewrite Ei, T1. reflexivity.
Qed.
Print Assumptions C76_no_window_refuted.

(** * C77 *)

(** A series with no negative correlation up to its window has an effective sample
    size between 0 and its length.  Missing: series with negative correlations. *)
Theorem C77_positive_partial : forall x max_lag, (length x <= max_lag)%nat -> (2 <= length x)%nat -> lag_sum x 0 <> 0 ->
  (forall M, sokal_window x M -> forall k, (k <= M)%nat -> 0 <= rho x k) ->
  exists e, ess_autocorrelation x None max_lag = Some (Fin e) /\ 0 < e <= INR (length x).
Proof.
  intros x L Hl H2 Hx Hp. destruct (C76_window_partial x L Hl H2 Hx) as (M & HM & E).
  assert (Ht : 1 <= tau x M).
  { unfold tau. rewrite sum_of_vsum. assert (0 <= vsum M (fun j => rho x (S j))); [|lra]. apply vsum_nonneg. intros i Hi.
    apply (Hp M HM). lia. }
  exists (INR (length x) / tau x M). unfold ess_autocorrelation. rewrite E. cbn [option_map xdiv_into]. unfold fdiv.
  destruct (Req_EM_T (tau x M) 0); [lra|]. split; [reflexivity|].
  assert (Hlen : 0 < INR (length x)) by (apply lt_0_INR; lia). split; [apply Rdiv_lt_0_compat; lra|].
  apply (Rmult_le_reg_r (tau x M)); [lra|]. unfold Rdiv. rewrite Rmult_assoc, Rinv_l by lra. nra.
Qed.
Print Assumptions C77_positive_partial.

(** two opposite spikes seven steps apart: no correlation up to lag 6 *)
Example C77_positive_partial_ex : exists e,
  ess_autocorrelation [1; 0; 0; 0; 0; 0; 0; - 1] None 1000 = Some (Fin e) /\ 0 < e <= 8.
Proof.
  set (x := [1; 0; 0; 0; 0; 0; 0; - 1]).
  assert (L0 : lag_sum x 0 = 2) by (unfold x, lag_sum, sum_of, dev, average; cbn [length Nat.sub seq map fold_right nth Nat.add INR]; field).
  assert (Lk : forall k, (1 <= k <= 6)%nat -> lag_sum x k = 0).
  { intros k Hk. do 7 (destruct k as [|k]; [try lia; unfold x, lag_sum, sum_of, dev, average; cbn [length Nat.sub seq map fold_right nth Nat.add INR]; field|]). lia. }
  assert (Rk : forall k, (1 <= k <= 6)%nat -> rho x k = 0) by (intros k Hk; unfold rho; rewrite Lk by exact Hk; unfold Rdiv; ring).
  assert (T6 : tau x 6 = 1).
  { unfold tau. rewrite sum_of_vsum, (vsum_ext 6 _ (fun _ => 0)), vsum_0; [ring|]. intros; apply Rk; lia. }
  destruct (C77_positive_partial x 1000) as (e & E & He); [cbn [x length]; lia|cbn [x length]; lia|lra| |].
  - intros M (H1 & H2 & H3) k Hk. assert (HM : (M <= 6)%nat).
    { destruct (Nat.le_gt_cases M 6); [assumption|]. specialize (H3 6%nat ltac:(lia)). rewrite T6 in H3. cbn in H3. lra. }
    destruct k as [|k]; [unfold rho; rewrite L0; lra|]. rewrite Rk by lia. lra.
  - exists e. split; [exact E|]. cbn [x length INR] in He. lra.
Qed.

(** An alternating series of four has effective sample size -8, a ramp of four plus infinity. *)
Theorem C77_negative_refuted : exists x max_lag e, (length x <= max_lag)%nat /\ lag_sum x 0 <> 0
  /\ ess_autocorrelation x None max_lag = Some (Fin e) /\ e < 0.
Proof.
  exists [1; - 1; 1; - 1], 1000%nat, (-8). split; [cbn [length]; lia|].
  assert (A : lag_sum [1; - 1; 1; - 1] 0 = 4) by (unfold lag_sum, sum_of, dev, average; cbn [length Nat.sub seq map fold_right nth Nat.add INR]; field).
  assert (B : lag_sum [1; - 1; 1; - 1] 1 = - 3) by (unfold lag_sum, sum_of, dev, average; cbn [length Nat.sub seq map fold_right nth Nat.add INR]; field).
  split; [lra|]. split; [|lra].
  assert (T : tau [1; - 1; 1; - 1] 1 = - (1 / 2)) by (unfold tau, rho, sum_of; cbn [seq map fold_right]; rewrite A, B; field).
  destruct (C76_window_partial [1; - 1; 1; - 1] 1000) as (M & (H1 & H2 & H3) & E); [cbn [length]; lia|cbn [length]; lia|lra|].
  assert (M = 1%nat) as ->.
  { destruct (Nat.eq_dec M 1); [assumption|]. specialize (H3 1%nat ltac:(lia)). rewrite T in H3. cbn in H3. lra. }
  unfold ess_autocorrelation. rewrite E, T. cbn [option_map xdiv_into length INR]. unfold fdiv. destruct (Req_EM_T _ 0); [lra|].
  do 2 f_equal. field.
Qed.
Print Assumptions C77_negative_refuted.
Theorem C77_infinite_refuted : exists x max_lag, (length x <= max_lag)%nat /\ lag_sum x 0 <> 0
  /\ ess_autocorrelation x None max_lag = Some PInf.
Proof.
  exists [0; 1; 2; 3], 1000%nat. destruct ramp_lags as (A & _). split; [cbn [length]; lia|]. split; [lra|].
  unfold ess_autocorrelation. rewrite C76_window_partial_ex. cbn [option_map xdiv_into length INR]. unfold fdiv.
  destruct (Req_EM_T 0 0); [|lra]. destruct (Rlt_dec 0 _); [reflexivity|lra].
Qed.
Print Assumptions C77_infinite_refuted.

(** * C78 *)

Lemma vsum_tel f n : vsum n (fun i => f (S i)) = vsum n f + f n - f 0%nat.
Proof. induction n; cbn [vsum]; [ring|]. rewrite IHn. ring. Qed.
Lemma jumps_nth x i : (S i < length x)%nat ->
  nth i (map (fun ab => (snd ab - fst ab) ^ 2) (combine x (tl x))) 0 = (nth (S i) x 0 - nth i x 0) ^ 2.
Proof.
  intros Hi. assert (Hl : length (combine x (tl x)) = (length x - 1)%nat) by (rewrite combine_length; destruct x; cbn [tl length]; lia).
  rewrite (nth_indep _ 0 ((fun ab => (snd ab - fst ab) ^ 2) (0, 0))) by (rewrite map_length; lia).
  rewrite (map_nth (fun ab => (snd ab - fst ab) ^ 2)). destruct x as [|a x]; [cbn in Hi; lia|]. cbn [tl].
  clear Hl. revert a i Hi. induction x as [|c x IH]; intros a i Hi; [cbn in Hi; lia|].
  destruct i as [|i]; [reflexivity|]. cbn [combine nth]. apply IH. cbn in *. lia.
Qed.

(** The mean squared jump is twice the difference of the lag-0 and lag-1 sums, up
    to the two end points *)
Theorem C78_jumps : forall x, (2 <= length x)%nat ->
  INR (length x - 1) * squared_jumping_distance x
  = 2 * (lag_sum x 0 - lag_sum x 1) - dev x 0 ^ 2 - dev x (length x - 1) ^ 2.
Proof.
  intros x H2. unfold squared_jumping_distance, mean. set (j := map _ _).
  assert (Hl : length j = (length x - 1)%nat) by (unfold j; rewrite map_length, combine_length; destruct x; cbn [tl length]; lia).
  rewrite Hl. replace (INR (length x - 1) * (total j / INR (length x - 1))) with (total j) by (field; apply not_0_INR; lia).
  rewrite total_vsum, Hl, !lag_sum_lagn. unfold lagn. rewrite Nat.sub_0_r.
  set (n := (length x - 1)%nat). replace (length x) with (S n) by (unfold n; lia).
  rewrite (vsum_ext n _ (fun i => dev x (S i) ^ 2 + (dev x i ^ 2 + -2 * (dev x i * dev x (i + 1)%nat)))).
  2:{ intros i Hi. unfold j. rewrite jumps_nth by (unfold n in Hi; lia). unfold dev. rewrite Nat.add_1_r. ring. }
  rewrite !vsum_plus, vsum_scal, (vsum_tel (fun i => dev x i ^ 2)). cbn [vsum].
  rewrite (vsum_ext n (fun i => dev x i * dev x (i + 0)%nat) (fun i => dev x i ^ 2)) by (intros; rewrite Nat.add_0_r; ring).
  rewrite Nat.add_0_r. ring.
Qed.
Print Assumptions C78_jumps.
Example C78_jumps_ex : squared_jumping_distance [0; 1; 2; 3] = 1
  /\ INR 3 * squared_jumping_distance [0; 1; 2; 3] = 2 * (5 - 5 / 4) - dev [0; 1; 2; 3] 0 ^ 2 - dev [0; 1; 2; 3] 3 ^ 2.
Proof.
  split.
  - unfold squared_jumping_distance, mean, total. cbn [tl combine map fold_right length fst snd INR]. field.
  - destruct ramp_lags as (A & B & _). assert (H := C78_jumps [0; 1; 2; 3] ltac:(cbn; lia)). rewrite A, B in H. exact H.
Qed.
