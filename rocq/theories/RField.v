(** The Coq reals as a field in the sense of mathcomp, so that its matrices can be used.
    The choice structure needs [constructive_indefinite_description] of the standard library. *)
From Coq Require Import Reals Lra ClassicalEpsilon FunctionalExtensionality.
From mathcomp Require Import all_ssreflect ssralg matrix.
Set Implicit Arguments.
Unset Strict Implicit.
Unset Printing Implicit Defensive.

Definition Req_bool (x y : R) : bool := if Req_EM_T x y is left _ then true else false.
Lemma Req_boolP : Equality.axiom Req_bool.
Proof. by move=> x y; rewrite /Req_bool; case: Req_EM_T => h; constructor. Qed.
Canonical R_eqMixin := EqMixin Req_boolP.
Canonical R_eqType := Eval hnf in EqType R R_eqMixin.

Definition pickR (P : pred R) (n : nat) : option R :=
  match excluded_middle_informative (exists x, P x) with
  | left h => Some (proj1_sig (constructive_indefinite_description _ h))
  | right _ => None
  end.
Lemma pickR_some P n x : pickR P n = Some x -> P x.
Proof.
  rewrite /pickR; case: excluded_middle_informative => // h [<-].
  exact: (proj2_sig (constructive_indefinite_description _ h)).
Qed.
Lemma pickR_ex (P : pred R) : (exists x : R, P x) -> exists n, pickR P n.
Proof. by move=> h; exists 0; rewrite /pickR; case: excluded_middle_informative. Qed.
Lemma pickR_ext (P Q : pred R) : P =1 Q -> pickR P =1 pickR Q.
Proof.
  move=> PQ n; have -> // : P = Q by apply: functional_extensionality_dep => x; exact: PQ.
Qed.
Definition R_choiceMixin : choiceMixin R := Choice.Mixin pickR_some pickR_ex pickR_ext.
Canonical R_choiceType := Eval hnf in ChoiceType R R_choiceMixin.

Lemma RaddA : associative Rplus. Proof. by move=> x y z; rewrite Rplus_assoc. Qed.
Lemma RaddC : commutative Rplus. Proof. exact: Rplus_comm. Qed.
Lemma Radd0 : left_id R0 Rplus. Proof. exact: Rplus_0_l. Qed.
Lemma RaddN : left_inverse R0 Ropp Rplus. Proof. exact: Rplus_opp_l. Qed.
Definition R_zmodMixin := ZmodMixin RaddA RaddC Radd0 RaddN.
Canonical R_zmodType := Eval hnf in ZmodType R R_zmodMixin.

Lemma RmulA : associative Rmult. Proof. by move=> x y z; rewrite Rmult_assoc. Qed.
Lemma Rmul1l : left_id R1 Rmult. Proof. exact: Rmult_1_l. Qed.
Lemma Rmul1r : right_id R1 Rmult. Proof. exact: Rmult_1_r. Qed.
Lemma RmulDl : left_distributive Rmult Rplus. Proof. by move=> x y z; rewrite Rmult_plus_distr_r. Qed.
Lemma RmulDr : right_distributive Rmult Rplus. Proof. by move=> x y z; rewrite Rmult_plus_distr_l. Qed.
Lemma R1_neq0 : R1 != R0 :> R. Proof. by apply/eqP; exact: R1_neq_R0. Qed.
Definition R_ringMixin := RingMixin RmulA Rmul1l Rmul1r RmulDl RmulDr R1_neq0.
Canonical R_ringType := Eval hnf in RingType R R_ringMixin.
Lemma RmulC : commutative Rmult. Proof. exact: Rmult_comm. Qed.
Canonical R_comRingType := Eval hnf in ComRingType R RmulC.

Definition Rinvx (x : R) : R := if x == R0 :> R then x else Rinv x.
Definition unit_R : pred R := fun x => x != R0 :> R.
Lemma RmulVx : {in unit_R, left_inverse R1 Rinvx Rmult}.
Proof. move=> x; rewrite -topredE /unit_R /Rinvx => /= xn0; rewrite (negbTE xn0); apply: Rinv_l; exact/eqP. Qed.
Lemma RmulxV : {in unit_R, right_inverse R1 Rinvx Rmult}.
Proof. by move=> x xu; rewrite RmulC RmulVx. Qed.
Lemma intro_unit_R (x y : R) : (Rmult y x = R1) /\ (Rmult x y = R1) -> unit_R x.
Proof. move=> [yx1 _]; apply/eqP => x0; move: yx1; rewrite x0 Rmult_0_r => /esym; exact: R1_neq_R0. Qed.
Lemma Rinvx_out : {in predC unit_R, Rinvx =1 id}.
Proof. by move=> x; rewrite inE /= /unit_R negbK => /eqP ->; rewrite /Rinvx eqxx. Qed.
Definition R_unitRingMixin := UnitRingMixin RmulVx RmulxV intro_unit_R Rinvx_out.
Canonical R_unitRing := Eval hnf in UnitRingType R R_unitRingMixin.
Canonical R_comUnitRingType := Eval hnf in [comUnitRingType of R].
Lemma R_idomainMixin (x y : R) : Rmult x y = R0 -> (x == R0 :> R) || (y == R0 :> R).
Proof.
  move=> h; case: (Req_EM_T x R0) => [->|xn0]; first by rewrite eqxx.
  by case: (Rmult_integral _ _ h) => [->|->]; rewrite eqxx ?orbT.
Qed.
Canonical R_idomainType := Eval hnf in IdomainType R R_idomainMixin.
Lemma R_fieldMixin : GRing.Field.mixin_of [unitRingType of R]. Proof. by []. Qed.
Definition R_fieldIdomainMixin := FieldIdomainMixin R_fieldMixin.
Canonical R_fieldType := Eval hnf in FieldType R R_fieldMixin.

(** translation between the two notations *)
Lemma RplusE (x y : R) : Rplus x y = (x + y)%R. Proof. by []. Qed.
Lemma RmultE (x y : R) : Rmult x y = (x * y)%R. Proof. by []. Qed.
Lemma RoppE (x : R) : Ropp x = (- x)%R. Proof. by []. Qed.
Lemma RminusE (x y : R) : Rminus x y = (x - y)%R. Proof. by []. Qed.
Lemma RinvE (x : R) : x <> R0 -> Rinv x = (x^-1)%R.
Proof. by move=> /eqP/negbTE xn0; rewrite /GRing.inv /= /Rinvx xn0. Qed.
Lemma RdivE (x y : R) : y <> R0 -> Rdiv x y = (x / y)%R.
Proof. by move=> h; rewrite /Rdiv RinvE. Qed.
Lemma R0E : R0 = 0%R. Proof. by []. Qed.
Lemma R1E : R1 = 1%R. Proof. by []. Qed.
