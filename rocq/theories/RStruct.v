(** The real numbers as a mathcomp field, so that the matrix library applies to
    them.  The choice structure uses Hilbert's epsilon (Coq.Logic.Epsilon). *)
From Coq Require Import Reals Epsilon Lra.
From mathcomp Require Import ssreflect ssrfun ssrbool eqtype ssrnat choice ssralg.
Import GRing.Theory.
Set Implicit Arguments.
Unset Strict Implicit.

Definition eqr (a b : R) : bool := if Req_EM_T a b is left _ then true else false.
Lemma eqrP : Equality.axiom eqr.
Proof. by move=> a b; rewrite /eqr; case: (Req_EM_T a b) => H; constructor. Qed.
Canonical R_eqMixin := EqMixin eqrP.
Canonical R_eqType := Eval hnf in EqType R R_eqMixin.

Definition pickR (P : pred R) (n : nat) : option R :=
  let x := epsilon (inhabits R0) P in if P x then Some x else None.
Fact pickR_some P n x : pickR P n = Some x -> P x.
Proof. by rewrite /pickR; case: (boolP (P _)) => // Px [<-]. Qed.
Fact pickR_ex (P : pred R) : (exists x, P x) -> exists n, pickR P n.
Proof. by rewrite /pickR; move=> H; exists 0; rewrite (epsilon_spec (inhabits R0) P H). Qed.
Fact pickR_ext (P Q : pred R) : P =1 Q -> pickR P =1 pickR Q.
Proof.
move=> PEQ n; rewrite /pickR; suff -> : P = Q by [].
by apply: FunctionalExtensionality.functional_extensionality => x; rewrite PEQ.
Qed.
Definition R_choiceMixin : choiceMixin R := Choice.Mixin pickR_some pickR_ex pickR_ext.
Canonical R_choiceType := Eval hnf in ChoiceType R R_choiceMixin.

Fact RaddA : associative Rplus. Proof. by move=> *; rewrite Rplus_assoc. Qed.
Fact RaddC : commutative Rplus. Proof. exact: Rplus_comm. Qed.
Fact Radd0 : left_id R0 Rplus. Proof. exact: Rplus_0_l. Qed.
Fact RaddN : left_inverse R0 Ropp Rplus. Proof. exact: Rplus_opp_l. Qed.
Definition R_zmodMixin := ZmodMixin RaddA RaddC Radd0 RaddN.
Canonical R_zmodType := Eval hnf in ZmodType R R_zmodMixin.

Fact RmulA : associative Rmult. Proof. by move=> *; rewrite Rmult_assoc. Qed.
Fact Rmul1 : left_id R1 Rmult. Proof. exact: Rmult_1_l. Qed.
Fact RmulR1 : right_id R1 Rmult. Proof. exact: Rmult_1_r. Qed.
Fact RmulDl : left_distributive Rmult Rplus. Proof. by move=> *; rewrite Rmult_plus_distr_r. Qed.
Fact RmulDr : right_distributive Rmult Rplus. Proof. by move=> *; rewrite Rmult_plus_distr_l. Qed.
Fact R1_neq0 : R1 != R0. Proof. by apply/eqP; exact: R1_neq_R0. Qed.
Definition R_ringMixin := RingMixin RmulA Rmul1 RmulR1 RmulDl RmulDr R1_neq0.
Canonical R_ringType := Eval hnf in RingType R R_ringMixin.
Fact RmulC : commutative Rmult. Proof. exact: Rmult_comm. Qed.
Canonical R_comRingType := Eval hnf in ComRingType R RmulC.

Fact RmulV : GRing.Field.axiom Rinv.
Proof. by move=> x /eqP xN0; exact: Rinv_l. Qed.
Definition R_unitRingMixin := FieldUnitMixin RmulV Rinv_0.
Canonical R_unitRingType := Eval hnf in UnitRingType R R_unitRingMixin.
Canonical R_comUnitRingType := Eval hnf in [comUnitRingType of R].
Fact R_fieldAxiom : GRing.Field.mixin_of R_unitRingType.
Proof. by move=> x xN0. Qed.
Canonical R_idomainType := Eval hnf in IdomainType R (FieldIdomainMixin R_fieldAxiom).
Canonical R_fieldType := Eval hnf in FieldType R R_fieldAxiom.

(** Between the field operations and the operations of Coq.Reals. *)
Lemma RplusE (x y : R) : Rplus x y = (x + y)%R. Proof. by []. Qed.
Lemma RmultE (x y : R) : Rmult x y = (x * y)%R. Proof. by []. Qed.
Lemma RoppE (x : R) : Ropp x = (- x)%R. Proof. by []. Qed.
Lemma RinvE (x : R) : Rinv x = (x^-1)%R. Proof. by []. Qed.
Lemma R0E : IZR 0 = 0%R :> R. Proof. by []. Qed.
Lemma R1E : IZR 1 = 1%R :> R. Proof. by []. Qed.
Lemma RsqrE (x : R) : Rmult x x = (x ^+ 2)%R. Proof. by rewrite GRing.expr2. Qed.

Ltac toR := rewrite -?RsqrE -?RplusE -?RmultE -?RoppE -?RinvE -?R0E -?R1E;
  try match goal with |- @eq ?T ?a ?b => change (@eq R a b) end.
