(** The real numbers of Coq's standard library as a mathcomp field, so that
    mathcomp's matrices and determinants apply to them. *)
From Coq Require Import Reals ClassicalEpsilon Lra.
From mathcomp Require Import ssreflect ssrfun ssrbool eqtype ssrnat seq choice fintype bigop ssralg matrix.
Set Implicit Arguments.
Unset Strict Implicit.
Delimit Scope R_scope with Re.

Definition eqr (x y : R) : bool := if Req_EM_T x y then true else false.
Lemma eqrP : Equality.axiom eqr.
Proof. by move=> x y; rewrite /eqr; case: Req_EM_T => H; constructor. Qed.
Canonical R_eqMixin := EqMixin eqrP.
Canonical R_eqType := Eval hnf in EqType R R_eqMixin.

Definition pickR (P : pred R) (n : nat) : option R :=
  match excluded_middle_informative (exists x, P x = true) with
  | left H => Some (proj1_sig (constructive_indefinite_description _ H))
  | right _ => None
  end.
Lemma pickR_some P n x : pickR P n = Some x -> P x.
Proof. by rewrite /pickR; case: excluded_middle_informative => // H [<-]; case: constructive_indefinite_description. Qed.
Lemma pickR_ex (P : pred R) : (exists x : R, P x) -> exists n, pickR P n.
Proof. by move=> H; exists 0%nat; rewrite /pickR; case: excluded_middle_informative. Qed.
Lemma pickR_ext (P Q : pred R) : P =1 Q -> pickR P =1 pickR Q.
Proof.
move=> PQ n; rewrite /pickR.
have -> : P = Q by apply: FunctionalExtensionality.functional_extensionality => x; apply: PQ.
by [].
Qed.
Definition R_choiceMixin : choiceMixin R := Choice.Mixin pickR_some pickR_ex pickR_ext.
Canonical R_choiceType := Eval hnf in ChoiceType R R_choiceMixin.

Fact R_addA : associative Rplus. Proof. by move=> *; rewrite Rplus_assoc. Qed.
Fact R_addC : commutative Rplus. Proof. exact: Rplus_comm. Qed.
Fact R_add0 : left_id 0%Re Rplus. Proof. exact: Rplus_0_l. Qed.
Fact R_addN : left_inverse 0%Re Ropp Rplus. Proof. exact: Rplus_opp_l. Qed.
Definition R_zmodMixin := ZmodMixin R_addA R_addC R_add0 R_addN.
Canonical R_zmodType := Eval hnf in ZmodType R R_zmodMixin.

Fact R_mulA : associative Rmult. Proof. by move=> *; rewrite Rmult_assoc. Qed.
Fact R_mulC : commutative Rmult. Proof. exact: Rmult_comm. Qed.
Fact R_mul1 : left_id 1%Re Rmult. Proof. exact: Rmult_1_l. Qed.
Fact R_mulD : left_distributive Rmult Rplus. Proof. exact: Rmult_plus_distr_r. Qed.
Fact R_nonzero : is_true (negb (eq_op 1%Re 0%Re)). Proof. by apply/eqP => H; lra. Qed.
Definition R_ringMixin := ComRingMixin R_mulA R_mulC R_mul1 R_mulD R_nonzero.
Canonical R_ringType := Eval hnf in RingType R R_ringMixin.
Canonical R_comRingType := Eval hnf in ComRingType R R_mulC.

Definition Rinvx (r : R) : R := if Req_EM_T r 0%Re then 0%Re else (/ r)%Re.
Fact R_fieldAxiom : GRing.Field.axiom Rinvx.
Proof. by move=> x /eqP x0; rewrite /Rinvx; case: Req_EM_T => //= _; apply: Rinv_l. Qed.
Fact R_inv0 : Rinvx 0%Re = 0%Re.
Proof. by rewrite /Rinvx; case: Req_EM_T. Qed.
Definition R_unitRingMixin := FieldUnitMixin R_fieldAxiom R_inv0.
Canonical R_unitRingType := Eval hnf in UnitRingType R R_unitRingMixin.
Canonical R_comUnitRingType := Eval hnf in [comUnitRingType of R].
Fact R_fieldMixin : GRing.Field.mixin_of R_unitRingType.
Proof. by []. Qed.
Canonical R_idomainType := Eval hnf in IdomainType R (FieldIdomainMixin R_fieldMixin).
Canonical R_fieldType := Eval hnf in FieldType R R_fieldMixin.


(** The operations of the two libraries are the same. *)
Lemma RaddE (x y : R) : (x + y)%R = (x + y)%Re. Proof. by []. Qed.
Lemma RmulE (x y : R) : (x * y)%R = (x * y)%Re. Proof. by []. Qed.
Lemma RoppE (x : R) : (- x)%R = (- x)%Re. Proof. by []. Qed.
Lemma RsubE (x y : R) : (x - y)%R = (x - y)%Re. Proof. by []. Qed.
Lemma RinvE (x : R) : x <> 0%Re -> (x^-1)%R = (/ x)%Re.
Proof. by move=> H; rewrite /GRing.inv /= /Rinvx; case: Req_EM_T. Qed.
Lemma RzeroE : (0 : R)%R = 0%Re. Proof. by []. Qed.
Lemma RoneE : (1 : R)%R = 1%Re. Proof. by []. Qed.
