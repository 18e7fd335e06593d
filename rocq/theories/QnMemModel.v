(** The memory of visited states from which the quasi-Newton underdamped sampler
    makes its preconditioner: mocat/src/mcmc/qn_underdamped.py 72-133, with
    [bfgs_sqrt_pqut] of mocat/src/utils.py (BfgsModel).  Exact real arithmetic;
    the stored values and gradients are numbers, the stored potentials may be
    infinite or NaN.  The damping [pos_def_r] is a number. *)
From Coq Require Import Reals.
From mathcomp Require Import ssreflect ssrfun ssrbool eqtype ssrnat seq path choice fintype bigop ssralg matrix.
From Verif Require Import XR RStruct BfgsModel.
Set Implicit Arguments.
Unset Strict Implicit.
Import GRing.Theory.
Local Open Scope ring_scope.

Section QnMem.
Variable d : nat.

(** One row of the arrays of [memory], lines 79-83 *)
Record qrow := QRow {
  qr_value : 'cV[R]_d;
  qr_prior : xr; qr_gprior : 'cV[R]_d;
  qr_lik : xr; qr_glik : 'cV[R]_d }.
Definition zrow : qrow := QRow 0 NInf 0 NInf 0.

(** Lines 114-120: drop the oldest row, append the new one *)
Definition mem_push (mem : seq qrow) (r : qrow) : seq qrow := rcons (behead mem) r.
(** Lines 77-89 *)
Definition mem_startup (m : nat) : seq qrow := mem_push (nseq m zrow) zrow.

(** Lines 122-125, the arguments of [_bfgs_vals_grads] *)
Definition row_potential (T : R) (r : qrow) : xr := xadd (qr_prior r) (xmul (Fin T) (qr_lik r)).
Definition row_grad (T : R) (r : qrow) : 'cV[R]_d := qr_gprior r + T *: qr_glik r.

(** [jnp.argsort], stable with NaN last *)
Definition arg_le (a b : xr) : bool := if isnan b then true else if isnan a then false else xleb a b.
(** Lines 72-75 and 99-104 *)
Definition mem_order (sorted : bool) (T : R) (mem : seq qrow) : seq qrow :=
  if sorted then sort (fun a b => arg_le (row_potential T a) (row_potential T b)) mem else mem.

(** Line 127, on the memory in its own order *)
Definition mem_flags (mem : seq qrow) : seq bool := [seq xltb NInf (qr_prior r) | r <- take (size mem).-1 mem].

(** Lines 122-132 *)
Definition mem_pqut (sorted : bool) (T : R) (D : idiag d) (r : R) (mem : seq qrow) : option (seq (quad d)) :=
  let o := mem_order sorted T mem in
  bfgs_pqut (map qr_value o) (map (row_grad T) o) D (Some r) (mem_flags mem).

(** The memory of a run that has visited [xs] (line 148, once per iteration) *)
Definition mem_run (m : nat) (xs : seq qrow) : seq qrow := foldl mem_push (mem_startup m) xs.
End QnMem.
