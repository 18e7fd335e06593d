(** Model of the temperatures of ensemble Kalman inversion,
    mocat/src/transport/teki.py: the attributes of the sampler and the functions
    of the iteration that give the next temperature. *)
From Coq Require Import Reals ZArith List.
From Verif Require Import XR.
Import ListNotations.
Open Scope R_scope.

(** * The temperature attributes, 42-67 and 87-92 *)

(** where [self.next_temperature] comes from *)
Inductive next_source := NUnset | NUser (f : nat -> R) | NSchedule.

Record tsampler := TSampler {
  q_max_iter : nat; q_max_temp : R; q_schedule : option (list R); q_next : next_source }.

(** 61-67: assigning [None] stores it and changes nothing else; an empty
    schedule raises *)
Definition set_schedule (v : option (list R)) (s : tsampler) : option tsampler :=
  match v with
  | None => Some (TSampler (q_max_iter s) (q_max_temp s) None (q_next s))
  | Some [] => None
  | Some (t :: l) => Some (TSampler (S (length l)) (last l t) (Some (t :: l)) NSchedule)
  end.

(** 42-59, for [next_temperature = None] or a function of the iteration *)
Definition construct (schedule : option (list R)) (next : option (nat -> R)) (max_temperature : R) (max_iter : nat)
  : option tsampler :=
  match set_schedule schedule (TSampler max_iter max_temperature None NUnset) with
  | None => None
  | Some s =>
    Some (match next with
          | None => s
          | Some f => TSampler (q_max_iter s) (q_max_temp s) (q_schedule s) (NUser f)
          end)
  end.

(** [jnp.round(x, 4)]: to the nearest multiple of 1e-4, ties to even *)
Definition round_even (x : R) : Z :=
  let f := Int_part x in
  if Rltb (frac_part x) (1 / 2) then f
  else if Rltb (1 / 2) (frac_part x) then (f + 1)%Z
  else if Z.even f then f else (f + 1)%Z.
Definition round4 (x : R) : R := (IZR (round_even (x * 10000)) / 10000).

(** 91-92 *)
Definition default_temperature (it : nat) : R := round4 (Rpower 2 (INR it / 50) - 1).

(** 67: indexing an array past its end gives the last entry *)
Definition schedule_at (l : list R) (it : nat) : R := nth it l (last l 0).

(** The function used by [update] once [startup] has set the default; [None]
    when the call raises (indexing [None]). *)
Definition temperature_function (s : tsampler) : option (nat -> R) :=
  match q_next s, q_schedule s with
  | NUnset, _ => Some default_temperature
  | NUser f, _ => Some f
  | NSchedule, Some l => Some (schedule_at l)
  | NSchedule, None => None
  end.
