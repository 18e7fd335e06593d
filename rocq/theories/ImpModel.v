(** Model of importance-sampling ABC for any proposal
    (mocat/src/abc/importance.py 14-79; VanillaABC, 82-121, is the instance
    whose proposal is the prior and whose weights are 1 and 0).

    Simplifications: as in AbcModel; the prior sampler is implemented. *)
From Coq Require Import Reals List Bool Arith.
From Verif Require Import XR Keys LoopModel McmcModel AbcModel.
Import ListNotations.
Open Scope R_scope.

Section Imp.
  Context {Data : Type}.
  Variable prior_sample : key -> vec.
  Variable prior_potential : vec -> key -> xr.
  Variable likelihood_sample : vec -> key -> Data.
  Variable distance : Data -> xr.
  Variable importance_proposal : key -> vec.
  (** the method [log_weight] as a function of the state *)
  Variable log_weight : abc_core (Data := Data) -> xr.

  (** importance.py 59-79, [proposal] and [update] *)
  Definition imp_update (s : isample (Data := Data)) (e : iextra) : isample * iextra :=
    let k := ie_key e in
    let v := importance_proposal (KSplit k 4 1) in
    let pr := prior_potential v (KSplit k 4 2) in
    let dat := likelihood_sample v (KSplit k 4 3) in
    let c := ABC v pr dat (distance dat) in
    (ISample c (log_weight c), IExtra (ie_iter e) (KSplit k 4 0)).

  (** importance.py 37-57 (no initial state) and abc.py 43-63: the first value
      comes from the prior, not from the proposal *)
  Definition imp_startup (k : key) : isample (Data := Data) * iextra :=
    let v := prior_sample (KSplit k 2 1) in
    let k1 := KSplit k 2 0 in
    let pr := prior_potential v (KSplit k1 2 1) in
    let k2 := KSplit k1 2 0 in
    let dat := likelihood_sample v (KSplit k2 2 1) in
    let c := ABC v pr dat (distance dat) in
    (ISample c (log_weight c), IExtra 0 (KSplit k2 2 0)).

  (** sample.py 80-83 and 135-140; importance.py 50 *)
  Definition imp_run (n : nat) (k : key) : list (isample (Data := Data)) :=
    run_loop (fun _ e => (n - 1 <=? ie_iter e)%nat) imp_update (imp_startup k) (n - 1).
End Imp.

(** importance.py 29-35, [ImportanceABC.log_weight] *)
Definition imp_log_weight {Data : Type} (importance_potential : vec -> xr) (thr : xr) (c : abc_core (Data := Data)) : xr :=
  if xltb (a_dist c) thr then xadd (xopp (a_prior c)) (importance_potential (a_value c)) else NInf.
