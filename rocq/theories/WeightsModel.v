(** Log weights and effective sample size, mocat/src/metrics.py 69-78.

    [logsumexp] is the library's; modelled by its mathematical meaning, the log
    of the sum of the exponentials, in the extended reals: entries equal to
    minus infinity contribute nothing, and the log of 0 is minus infinity. *)
From Coq Require Import Reals List.
From Verif Require Import XR.
Import ListNotations.
Open Scope R_scope.

Definition xsum (l : list xr) : xr := fold_right xadd (Fin 0) l.

Definition xlog (a : xr) : xr :=
  match a with
  | Fin r => if Rlt_dec 0 r then Fin (ln r) else if Rlt_dec r 0 then NaN else NInf
  | PInf => PInf
  | _ => NaN
  end.

(** [jax.scipy.special.logsumexp] *)
Definition logsumexp (l : list xr) : xr := xlog (xsum (map xexp l)).

(** [logsumexp(l, b=1/n)] *)
Definition logmeanexp (n : nat) (l : list xr) : xr :=
  xlog (xsum (map (fun x => xmul (Fin (/ INR n)) (xexp x)) l)).

(** metrics.py 69-74 *)
Definition log_ess_log_weight (lw : list xr) : xr :=
  xsub (xmul (Fin 2) (logsumexp lw)) (logsumexp (map (xmul (Fin 2)) lw)).

(** metrics.py 77-78 *)
Definition ess_log_weight (lw : list xr) : xr := xexp (log_ess_log_weight lw).
