(** Property theorems C18. *)
From Coq Require Import Reals Bool Arith Lia Lra.
From Coquelicot Require Import Coquelicot.
From Verif Require Import XR BisectModel BisectProofs.
Open Scope R_scope.

(** C18: for every function, interval (in either order), positive tolerance and
    iteration limit. *)
Theorem C18_bisect :
  forall (f : R -> R) (max_iter : nat) (tol lo hi : R), 0 < tol ->
  let r := bisect f max_iter tol lo hi in
  (* the values returned with the bounds are the function's *)
  (e0 r = f (b0 r) /\ e1 r = f (b1 r))
  (* the bounds stay in the initial interval, in the same order *)
  /\ (Rmin lo hi <= b0 r <= Rmax lo hi /\ Rmin lo hi <= b1 r <= Rmax lo hi)
  /\ ((lo <= hi -> b0 r <= b1 r) /\ (hi <= lo -> b1 r <= b0 r))
  (* opposite signs are kept *)
  /\ (f lo * f hi <= 0 -> f (b0 r) * f (b1 r) <= 0)
  (* iterations *)
  /\ (biter r <= max_iter)%nat
  /\ (Rabs (f (b0 r)) < tol \/ Rabs (f (b1 r)) < tol \/ biter r = max_iter
      \/ f (b0 r) * f (b1 r) > 0)
  (* no iteration divides by zero *)
  /\ (forall j, (j < biter r)%nat ->
        let s := Nat.iter j (body_func f (bisect_increasing f lo hi)) (bisect_init f lo hi) in
        e1 s - e0 s <> 0).
Proof.
  intros f m tol lo hi Ht. cbv zeta.
  destruct (bisect_run f m tol Ht lo hi) as (k & E & B & C & A & I).
  set (r := bisect f m tol lo hi) in *.
  assert (Main : (e0 r = f (b0 r) /\ e1 r = f (b1 r))
    /\ (Rmin lo hi <= b0 r <= Rmax lo hi /\ Rmin lo hi <= b1 r <= Rmax lo hi)
    /\ ((lo <= hi -> b0 r <= b1 r) /\ (hi <= lo -> b1 r <= b0 r))
    /\ (f lo * f hi <= 0 -> f (b0 r) * f (b1 r) <= 0)).
  { destruct k as [|k].
    - rewrite E. cbn.
      pose proof (Rmin_l lo hi). pose proof (Rmin_r lo hi). pose proof (Rmax_l lo hi). pose proof (Rmax_r lo hi).
      split; [split; reflexivity|]. split; [lra|]. split; [lra|auto].
    - specialize (I (Nat.lt_0_succ k) (S k) (Nat.le_refl _)). rewrite <- E in I.
      destruct I as (E0 & E1 & B0 & B1 & O1 & O2 & S).
      split; [auto|]. split; [auto|]. split; [auto|]. intros _.
      rewrite <- E0, <- E1. destruct (bisect_increasing f lo hi); nra. }
  destruct Main as ((E0 & E1) & Main2).
  split; [auto|]. destruct Main2 as (M1 & M2 & M3).
  split; [exact M1|]. split; [exact M2|]. split; [exact M3|].
  assert (L : (biter r <= m)%nat).
  { rewrite B. destruct k as [|k]; [lia|].
    specialize (A k (Nat.lt_succ_diag_r k)). apply conv_check_true in A; [|exact Ht].
    destruct A as (_ & _ & A & _).
    assert (Bk : forall j, biter (bsteps f (bisect_increasing f lo hi) j (bisect_init f lo hi)) = j).
    { induction j as [|j IH]; [reflexivity|]. rewrite bsteps_succ, body_biter, IH. reflexivity. }
    rewrite Bk in A. lia. }
  split; [exact L|]. split.
  - rewrite <- E0, <- E1.
    destruct (conv_check_false m tol r C) as [H|[H|[H|[H|H]]]]; auto.
    + right. right. left. lia.
    + right. right. right. nra.
    + right. right. right. nra.
  - intros j Hj. rewrite <- bsteps_iter. rewrite B in Hj. specialize (A j Hj). apply conv_check_true in A; [|exact Ht].
    destruct A as (_ & _ & _ & S). lra.
Qed.
Print Assumptions C18_bisect.

(** Consequence: starting from a sign change, either the iteration limit was
    reached or one of the bounds is a root up to [tol]. *)
Theorem C18_converges :
  forall (f : R -> R) (max_iter : nat) (tol lo hi : R), 0 < tol -> f lo * f hi <= 0 ->
  let r := bisect f max_iter tol lo hi in
  biter r = max_iter \/ Rabs (f (b0 r)) < tol \/ Rabs (f (b1 r)) < tol.
Proof.
  intros f m tol lo hi Ht S. cbv zeta.
  destruct (C18_bisect f m tol lo hi Ht) as (_ & _ & _ & K & _ & D & _).
  specialize (K S). destruct D as [D|[D|[D|D]]]; auto. lra.
Qed.
Print Assumptions C18_converges.

(** Consequence: for a continuous function with a sign change there is a root
    between the returned bounds. *)
Theorem C18_brackets_root :
  forall (f : R -> R) (max_iter : nat) (tol lo hi : R), 0 < tol ->
  Ranalysis1.continuity f -> f lo * f hi <= 0 ->
  let r := bisect f max_iter tol lo hi in
  exists z, Rmin (b0 r) (b1 r) <= z <= Rmax (b0 r) (b1 r) /\ f z = 0.
Proof.
  intros f m tol lo hi Ht Hc S. cbv zeta.
  destruct (C18_bisect f m tol lo hi Ht) as (_ & _ & _ & K & _).
  specialize (K S). cbv zeta in K. set (r := bisect f m tol lo hi) in *.
  destruct (IVT_gen f (b0 r) (b1 r) 0 Hc) as (z & Hz & Fz).
  - unfold Rmin, Rmax. destruct (Rle_dec (f (b0 r)) (f (b1 r))); nra.
  - exists z. auto.
Qed.
Print Assumptions C18_brackets_root.

(** With tolerance 0 the finder can divide by zero: the tolerance must be
    positive. *)
Theorem C18_zero_tolerance_refuted :
  exists (f : R -> R) (max_iter : nat) (lo hi : R),
    biter (bisect f max_iter 0 lo hi) = 1%nat
    /\ e1 (bisect_init f lo hi) - e0 (bisect_init f lo hi) = 0.
Proof.
  exists (fun _ => 0), 1%nat, 0, 1. split; [|cbn; lra].
  unfold bisect, while_loop, conv_check, bisect_init. cbn [e0 e1 biter].
  rewrite Rabs_R0. unfold Rmin. destruct (Rle_dec 0 0); [|lra].
  replace (Rltb 0 0) with false by (symmetry; apply Rltb_false; lra). cbn.
  apply body_biter.
Qed.
Print Assumptions C18_zero_tolerance_refuted.

(** x^2 - 2 on [0, 2] has a sign change; one step moves the lower bound to 1. *)
Example C18_example :
  let f := fun x => x * x - 2 in
  f 0 * f 2 <= 0 /\ Ranalysis1.continuity f
  /\ b0 (bisect f 1 (/ 100) 0 2) = 1 /\ b1 (bisect f 1 (/ 100) 0 2) = 2
  /\ biter (bisect f 1 (/ 100) 0 2) = 1%nat.
Proof.
  cbv zeta. split; [lra|]. split; [unfold continuity; intros x; apply derivable_continuous_pt; reg|].
  assert (E : bisect (fun x => x * x - 2) 1 (/ 100) 0 2
              = BState 1 2 (-1) 2 1).
  { unfold bisect, while_loop, conv_check, bisect_init, bisect_increasing. cbn [e0 e1 biter b0 b1].
    replace (Rltb (0 * 0 - 2) (2 * 2 - 2)) with true by (symmetry; apply Rltb_true; lra).
    replace (Rltb (Rmin (Rabs (0 * 0 - 2)) (Rabs (2 * 2 - 2))) (/ 100)) with false
      by (symmetry; apply Rltb_false; unfold Rmin, Rabs;
          repeat (match goal with |- context[Rcase_abs ?x] => destruct (Rcase_abs x) end);
          repeat (match goal with |- context[Rle_dec ?x ?y] => destruct (Rle_dec x y) end); lra).
    replace (Rltb (2 * 2 - 2) 0) with false by (symmetry; apply Rltb_false; lra).
    replace (Rltb 0 (0 * 0 - 2)) with false by (symmetry; apply Rltb_false; lra).
    rewrite Bool.andb_false_r. cbn.
    unfold body_func, new_pos. cbn.
    replace (0 - (0 * 0 - 2) * (2 - 0) / (2 * 2 - 2 - (0 * 0 - 2))) with 1 by field.
    replace (Rltb 0 (1 * 1 - 2)) with false by (symmetry; apply Rltb_false; lra).
    f_equal; lra. }
  rewrite E. cbn. auto.
Qed.
