(** Property theorems C01, C02 (loop part) and C51. *)
From Coq Require Import List Arith Bool Lia Sorted.
From Verif Require Import LoopModel LoopSpec LoopProofs.
Import ListNotations.

(** C01: for every criterion, update, start and limit the chain is the start
    followed by the first [k] iterates, [k] being the number of iterations of
    the corresponding while loop. *)
Theorem C01_run_is_while_loop :
  forall (St Ex : Type) (terminate : St -> Ex -> bool) (update : St -> Ex -> St * Ex)
         (init : St * Ex) (max_iter : nat),
  exists! k,
    stops_at (fun s e => negb (terminate s e)) update init max_iter k
    /\ run_loop terminate update init max_iter
       = map (fun i => fst (iterate update i init)) (seq 0 (S k)).
Proof.
  intros St Ex t u i m.
  destruct (run_loop_correct t u i m) as (k & Hk & He).
  exists k. split; [auto|]. intros k' (Hk' & _). exact (stops_at_unique _ _ _ _ _ _ Hk Hk').
Qed.
Print Assumptions C01_run_is_while_loop.

(** The unsliced variant used by the simulators (SIR, Lotka-Volterra): after
    the stopping iteration the stack is padded with the *initial* state and the
    returned carry is the *initial* carry. *)
Theorem C01_raw_stack_padding :
  forall (St Ex : Type) (cond : St -> Ex -> bool) (body : St -> Ex -> St * Ex)
         (init : St * Ex) (max_iter : nat),
  exists k, stops_at cond body init max_iter k
    /\ fst (fst (while_loop_stacked_raw cond body init max_iter))
       = iterates body init k ++ repeat (fst init) (max_iter - k)
    /\ snd (fst (while_loop_stacked_raw cond body init max_iter))
       = (if k =? max_iter then iterate body k init else init)
    /\ snd (while_loop_stacked_raw cond body init max_iter) = k.
Proof. exact (@raw_correct). Qed.
Print Assumptions C01_raw_stack_padding.

(** Non-vacuity: a criterion that fires at 3 and is false again afterwards. *)
Example C01_example :
  run_loop (fun s e => s =? 3) (fun s e => (s + 1, e)) (0, tt) 10 = [0; 1; 2; 3].
Proof. reflexivity. Qed.
Example C01_example_limit :
  run_loop (fun s e => s =? 3) (fun s e => (s + 2, e)) (0, tt) 4 = [0; 2; 4; 6; 8].
Proof. reflexivity. Qed.

(** C02 (loop part): with a counter increased by every update and the default
    criterion [iter >= max_iter], the run has [1 + (max_iter - iter0)] states,
    the i-th being the result of i updates. *)
Theorem C02_counted_run_length :
  forall (St Ex : Type) (iter_of : Ex -> nat) (update : St -> Ex -> St * Ex),
  (forall s e, iter_of (snd (update s e)) = S (iter_of e)) ->
  forall (init : St * Ex) (max_iter : nat),
    run_loop (fun s e => max_iter <=? iter_of e) update init max_iter
    = map (fun i => fst (iterate update i init)) (seq 0 (S (max_iter - iter_of (snd init)))).
Proof. exact (@run_counter). Qed.
Print Assumptions C02_counted_run_length.

(** C51 *)
Theorem C51_leave_one_out :
  forall n i, i <= n ->
    leave_one_out_indices n i = filter (fun j => negb (j =? i)) (seq 0 (S n)).
Proof. exact loo_filter. Qed.
Print Assumptions C51_leave_one_out.

(** The remaining input, an index beyond [n], removes the last index. *)
Theorem C51_leave_one_out_beyond :
  forall n i, n < i -> leave_one_out_indices n i = seq 0 n.
Proof. exact loo_out_of_range. Qed.
Print Assumptions C51_leave_one_out_beyond.

Example C51_example : leave_one_out_indices 5 2 = [0; 1; 3; 4; 5].
Proof. reflexivity. Qed.
