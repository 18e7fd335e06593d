(** The quasi-Newton sampler (mocat/src/mcmc/qn_underdamped.py) with the
    preconditioner computed from its memory: the pairs that HmcModel takes as
    parameters are those of [update_memory], lines 106-133 (QnMemModel).  A
    NaN among them does not occur with a finite [pos_def_r] (C34_no_nan); the
    model then has no pairs. *)
From Coq Require Import Reals List.
From mathcomp Require Import ssreflect ssrfun ssrbool eqtype ssrnat seq choice fintype bigop ssralg matrix.
From Verif Require Import RStruct XR Keys McmcModel HmcModel BfgsModel QnMemModel VolSpec.
Set Implicit Arguments.
Unset Strict Implicit.

Section QnRev.
Variable d : nat.
Variable sorted : bool.     (* sort_bfgs *)
Variable T : R.             (* scenario.temperature *)
Variable diag : R.          (* init_hessian_sqrt_diag, a number *)
Variable r : R.             (* pos_def_r *)

(** a row of the memory arrays, with vectors as columns *)
Definition to_qrow (m : mrow) : qrow d :=
  QRow (ofv d (m_value m)) (m_prior m) (ofv d (m_gprior m)) (m_lik m) (ofv d (m_glik m)).

(** lines 122-132 *)
Definition quads (mem : list mrow) : seq (quad d) :=
  if mem_pqut sorted T (IScalar d diag) r (map to_qrow mem) is Some out then out else [::].
(** [memory.ps] with [memory.qs], [memory.us] with [memory.ts] *)
Definition mem_pqs (mem : list mrow) : list (vec * vec) := map (fun Q => (tov (qp Q), tov (qq Q))) (quads mem).
Definition mem_uts (mem : list mrow) : list (vec * vec) := map (fun Q => (tov (qu Q), tov (qt Q))) (quads mem).
End QnRev.
