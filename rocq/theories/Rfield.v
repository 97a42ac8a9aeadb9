(** * The reals as a mathcomp field

    Canonical structures that make Coq's [R] a mathcomp [fieldType], so that mathcomp's matrices and determinants can
    be used as the textbook specification.  Not a model of any file of /repo. *)
From Coq Require Import Reals Lra ClassicalEpsilon FunctionalExtensionality.
From mathcomp Require Import all_ssreflect all_algebra.
Set Implicit Arguments.
Unset Strict Implicit.
Unset Printing Implicit Defensive.

Definition eqR (x y : R) : bool := if Req_EM_T x y then true else false.
Lemma eqRP : Equality.axiom eqR.
Proof. by move=> x y; rewrite /eqR; case: Req_EM_T => H; constructor. Qed.
Definition R_eqMixin := EqMixin eqRP.
Canonical R_eqType := Eval hnf in EqType R R_eqMixin.

Definition pickR (P : pred R) (n : nat) : option R :=
  match excluded_middle_informative (exists x, P x = true) with
  | left H => Some (proj1_sig (constructive_indefinite_description _ H))
  | right _ => None
  end.
Lemma pickR_some P n x : pickR P n = Some x -> P x.
Proof.
rewrite /pickR; case: excluded_middle_informative => // H [<-].
exact: (proj2_sig (constructive_indefinite_description _ H)).
Qed.
Lemma pickR_ex (P : pred R) : (exists x : R, P x) -> exists n, pickR P n.
Proof. by rewrite /pickR => H; exists 0%N; case: excluded_middle_informative. Qed.
Lemma pickR_ext (P Q : pred R) : P =1 Q -> pickR P =1 pickR Q.
Proof. by move=> /functional_extensionality ->. Qed.
Definition R_choiceMixin := Choice.Mixin pickR_some pickR_ex pickR_ext.
Canonical R_choiceType := Eval hnf in ChoiceType R R_choiceMixin.

Fact R_addA : associative Rplus. Proof. by move=> x y z; rewrite Rplus_assoc. Qed.
Definition R_zmodMixin := ZmodMixin R_addA Rplus_comm Rplus_0_l Rplus_opp_l.
Canonical R_zmodType := Eval hnf in ZmodType R R_zmodMixin.

Fact R_mulA : associative Rmult. Proof. by move=> x y z; rewrite Rmult_assoc. Qed.
Fact R_mulDl : left_distributive Rmult Rplus. Proof. by move=> x y z; ring. Qed.
Fact R_mulDr : right_distributive Rmult Rplus. Proof. by move=> x y z; ring. Qed.
Fact R_one_neq0 : R1 != R0. Proof. by apply/eqP; exact: R1_neq_R0. Qed.
Definition R_ringMixin := RingMixin R_mulA Rmult_1_l Rmult_1_r R_mulDl R_mulDr R_one_neq0.
Canonical R_ringType := Eval hnf in RingType R R_ringMixin.
Canonical R_comRingType := Eval hnf in ComRingType R Rmult_comm.

Definition invR (x : R) : R := if x == R0 then R0 else Rinv x.
Fact R_mulVf : GRing.Field.axiom invR.
Proof. by move=> x nz; rewrite /invR (negbTE nz); apply: Rinv_l; apply/eqP. Qed.
Fact R_inv0 : invR R0 = R0.
Proof. by rewrite /invR eqxx. Qed.
Definition R_unitRingMixin := FieldUnitMixin R_mulVf R_inv0.
Canonical R_unitRingType := Eval hnf in UnitRingType R R_unitRingMixin.
Canonical R_comUnitRingType := Eval hnf in [comUnitRingType of R].
Fact R_fieldMixin : GRing.Field.mixin_of R_unitRingType.
Proof. by []. Qed.
Definition R_idomainMixin := FieldIdomainMixin R_fieldMixin.
Canonical R_idomainType := Eval hnf in IdomainType R R_idomainMixin.
Canonical R_fieldType := Eval hnf in FieldType R R_fieldMixin.

