(** Extended reals with NaN: the part of IEEE arithmetic that decides the
    behaviour of the samplers.  No rounding. *)
From Coq Require Import Reals Lra Bool.
Open Scope R_scope.

Inductive xr : Type := Fin (r : R) | PInf | NInf | NaN.

Definition xopp (a : xr) : xr :=
  match a with Fin r => Fin (- r) | PInf => NInf | NInf => PInf | NaN => NaN end.

Definition xadd (a b : xr) : xr :=
  match a, b with
  | NaN, _ | _, NaN => NaN
  | Fin r, Fin s => Fin (r + s)
  | PInf, NInf | NInf, PInf => NaN
  | PInf, _ | _, PInf => PInf
  | NInf, _ | _, NInf => NInf
  end.

Definition xsub (a b : xr) : xr := xadd a (xopp b).

Definition xexp (a : xr) : xr :=
  match a with Fin r => Fin (exp r) | PInf => PInf | NInf => Fin 0 | NaN => NaN end.

Definition Rltb (a b : R) : bool := if Rlt_dec a b then true else false.
Definition Rleb (a b : R) : bool := if Rle_dec a b then true else false.

(** [<] is false when an argument is NaN *)
Definition xltb (a b : xr) : bool :=
  match a, b with
  | NaN, _ | _, NaN => false
  | Fin r, Fin s => Rltb r s
  | NInf, NInf => false
  | NInf, _ => true
  | _, NInf => false
  | PInf, _ => false
  | _, PInf => true
  end.

Definition xleb (a b : xr) : bool :=
  match a, b with
  | NaN, _ | _, NaN => false
  | Fin r, Fin s => Rleb r s
  | NInf, _ => true
  | _, NInf => false
  | _, PInf => true
  | PInf, _ => false
  end.

(** [jnp.minimum] propagates NaN *)
Definition xmin (a b : xr) : xr :=
  match a, b with
  | NaN, _ | _, NaN => NaN
  | _, _ => if xleb a b then a else b
  end.

(** multiplication *)
Definition xmul (a b : xr) : xr :=
  match a, b with
  | NaN, _ | _, NaN => NaN
  | Fin r, Fin s => Fin (r * s)
  | Fin r, PInf | PInf, Fin r =>
      if Rlt_dec 0 r then PInf else if Rlt_dec r 0 then NInf else NaN
  | Fin r, NInf | NInf, Fin r =>
      if Rlt_dec 0 r then NInf else if Rlt_dec r 0 then PInf else NaN
  | PInf, PInf | NInf, NInf => PInf
  | PInf, NInf | NInf, PInf => NInf
  end.

(** a boolean used as a number *)
Definition xbool (b : bool) : xr := if b then Fin 1 else Fin 0.

Definition isnan (a : xr) : bool := match a with NaN => true | _ => false end.

Definition finite (a : xr) : Prop := exists r, a = Fin r.

Lemma Rltb_true a b : Rltb a b = true <-> a < b.
Proof. unfold Rltb. destruct (Rlt_dec a b); split; auto; discriminate. Qed.
Lemma Rltb_false a b : Rltb a b = false <-> b <= a.
Proof. unfold Rltb. destruct (Rlt_dec a b); split; intros; try discriminate; auto; lra. Qed.
Lemma Rleb_true a b : Rleb a b = true <-> a <= b.
Proof. unfold Rleb. destruct (Rle_dec a b); split; auto; discriminate. Qed.
Lemma Rleb_false a b : Rleb a b = false <-> b < a.
Proof. unfold Rleb. destruct (Rle_dec a b); split; intros; try discriminate; auto; lra. Qed.
