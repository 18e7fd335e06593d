(** C101: with a fixed temperature schedule the SMC normalising-constant estimate
    is unbiased, for every number of particles, resampling threshold and number
    of updates. *)
From Coq Require Import Reals List Bool Arith Lia Lra.
From Verif Require Import XR Keys McmcModel WeightsModel WeightsSpec SmcModel SmcSpec SmcProps UnbSpec UnbProofs.
Import ListNotations.
Open Scope R_scope.

Lemma schedule_pos (l : list R) : l <> [] -> List.Forall (fun t => 0 < t) l -> forall j, 0 < nth j l (last l 0).
Proof.
  intros N F j. rewrite Forall_forall in F. destruct (Nat.lt_ge_cases j (length l)) as [H|H].
  - rewrite (nth_indep _ _ 0) by exact H. apply F. apply nth_In, H.
  - rewrite nth_overflow by exact H. apply F. destruct (exists_last N) as (m & a & ->). rewrite last_last.
    apply in_or_app. right. left. reflexivity.
Qed.

(** The expected value of exp(log_norm_constant) after J updates is the ratio of
    the mass of the tempered density at the J-th temperature to that of the
    prior. *)
Theorem C101_unbiased :
  forall (fp fl : vec -> R) (supp : list vec) (K : R -> vec -> vec -> R) (gprior glik : vec -> key -> vec)
         (l : list R) (thr : R) (n J : nat) (k : key) (st : R),
  supp <> [] -> rows_ok supp K -> invariant_ok fp fl supp K ->
  l <> [] -> List.Forall (fun t => 0 < t) l -> (0 < n)%nat ->
  smc_mean fp fl supp K gprior glik l thr n J k st norm_constant
  = Rsum (map (fun x => exp (- fp x - nth J l (last l 0) * fl x)) supp)
    / Rsum (map (fun x => exp (- fp x)) supp).
Proof.
  intros fp fl supp K gp gl l thr n J k st Sn Ro In Ln Lp Hn.
  rewrite (smc_mean_estimate fp fl supp K gp gl l thr Sn Ro (schedule_pos l Ln Lp) In n J k st (fun _ => 1) norm_constant Hn).
  - unfold gsum, gam. f_equal; apply Rsum_ext; intros x _; rewrite Rmult_1_r; f_equal; lra.
  - intros c Fc. apply (fine_one fp fl supp l J c Fc).
Qed.
Print Assumptions C101_unbiased.

(** The same with a test function: norm constant times the weighted average of
    phi over the particles estimates the unnormalised integral of phi. *)
Theorem C101_weighted_average :
  forall (fp fl : vec -> R) (supp : list vec) (K : R -> vec -> vec -> R) (gprior glik : vec -> key -> vec)
         (l : list R) (thr : R) (n J : nat) (k : key) (st : R) (phi : vec -> R),
  supp <> [] -> rows_ok supp K -> invariant_ok fp fl supp K ->
  l <> [] -> List.Forall (fun t => 0 < t) l -> (0 < n)%nat ->
  smc_mean fp fl supp K gprior glik l thr n J k st (estimate phi)
  = Rsum (map (fun x => exp (- fp x - nth J l (last l 0) * fl x) * phi x) supp)
    / Rsum (map (fun x => exp (- fp x)) supp).
Proof.
  intros fp fl supp K gp gl l thr n J k st phi Sn Ro In Ln Lp Hn.
  rewrite (smc_mean_estimate fp fl supp K gp gl l thr Sn Ro (schedule_pos l Ln Lp) In n J k st phi (estimate phi) Hn).
  - unfold gsum, gam. f_equal. apply Rsum_ext; intros x _. rewrite Rmult_1_r. f_equal. lra.
  - reflexivity.
Qed.
Print Assumptions C101_weighted_average.

(** A Metropolis kernel on two points, one proposing to flip: the hypotheses hold
    and the expected normalising constant after the schedule 1/4, 1 is
    (1 + e^-1) / 2. *)
Example C101_example :
  let pt := fun i : nat => fun _ : nat => INR i in
  let fl := fun v : vec => v 0%nat in
  let K := fun (t : R) (x y : vec) =>
    if Req_EM_T (x 0%nat) (y 0%nat) then 1 - Rmin 1 (exp (t * (2 * x 0%nat - 1))) else Rmin 1 (exp (t * (x 0%nat - y 0%nat))) in
  let supp := [pt 0%nat; pt 1%nat] in
  rows_ok supp K /\ invariant_ok (fun _ => 0) fl supp K
  /\ forall n, (0 < n)%nat ->
     smc_mean (fun _ => 0) fl supp K (fun _ _ _ => 0) (fun _ _ _ => 0) [/ 4; 1] (/ 2) n 1 (KRoot 0) 1 norm_constant
     = (1 + exp (- 1)) / 2.
Proof.
  intros pt fl K supp.
  assert (P : forall t, 0 < t -> exp (- t) < 1 /\ 1 < exp t).
  { intros t Ht. rewrite <- exp_0. split; apply exp_increasing; lra. }
  assert (K00 : forall t, 0 < t -> K t (pt 0%nat) (pt 0%nat) = 1 - exp (- t) /\ K t (pt 0%nat) (pt 1%nat) = exp (- t)
     /\ K t (pt 1%nat) (pt 0%nat) = 1 /\ K t (pt 1%nat) (pt 1%nat) = 0).
  { intros t Ht. destruct (P t Ht). unfold K, pt. cbn [INR].
    destruct (Req_EM_T 0 0); [|lra]. destruct (Req_EM_T 0 1); [lra|]. destruct (Req_EM_T 1 0); [lra|]. destruct (Req_EM_T 1 1); [|lra].
    replace (t * (2 * 0 - 1)) with (- t) by lra. replace (t * (0 - 1)) with (- t) by lra.
    replace (t * (1 - 0)) with t by lra. replace (t * (2 * 1 - 1)) with t by lra.
    rewrite (Rmin_right 1 (exp (- t))), (Rmin_left 1 (exp t)) by lra. lra. }
  assert (Ro : rows_ok supp K).
  { intros t x Ht Hx. destruct (K00 t Ht) as (a & b & c & d).
    destruct Hx as [<-|[<-|[]]]; cbn [supp map Rsum]; rewrite ?a, ?b, ?c, ?d; lra. }
  assert (In : invariant_ok (fun _ => 0) fl supp K).
  { intros t y Ht Hy. destruct (K00 t Ht) as (a & b & c & d).
    destruct Hy as [<-|[<-|[]]]; cbn [supp map Rsum]; rewrite ?a, ?b, ?c, ?d; unfold gam, fl, pt; cbn [INR];
      replace (- 0 - t * 0) with 0 by lra; replace (- 0 - t * 1) with (- t) by lra; rewrite exp_0; lra. }
  split; [exact Ro|]. split; [exact In|]. intros n Hn.
  rewrite C101_unbiased; auto; try discriminate.
  - cbn [nth supp map Rsum]. unfold fl, pt. cbn [INR].
    replace (- 0 - 1 * 0) with 0 by lra. replace (- 0 - 1 * 1) with (- 1) by lra. rewrite Ropp_0, exp_0. lra.
  - repeat constructor; lra.
Qed.
