(** The real numbers of the Coq standard library as a mathcomp field, so that
    the matrix development (any field) applies to R.  Choice on R comes from
    Coq.Logic.ClassicalEpsilon. *)
From Coq Require Import Reals ClassicalEpsilon.
From mathcomp Require Import all_ssreflect all_algebra.
Set Implicit Arguments. Unset Strict Implicit. Unset Printing Implicit Defensive.

Definition Reqb (x y : R) : bool := if Req_EM_T x y then true else false.
Lemma ReqP : Equality.axiom Reqb.
Proof. by move=> x y; rewrite /Reqb; case: Req_EM_T => h; constructor. Qed.
Definition R_eqMixin := EqMixin ReqP.
Canonical R_eqType := Eval hnf in EqType R R_eqMixin.

Definition R_find (P : pred R) (n : nat) : option R :=
  match excluded_middle_informative (exists x, P x) with
  | left h => Some (proj1_sig (constructive_indefinite_description _ h))
  | right _ => None
  end.
Lemma R_find_some (P : pred R) n x : R_find P n = Some x -> P x.
Proof.
rewrite /R_find; case: excluded_middle_informative => // h [<-].
exact: (proj2_sig (constructive_indefinite_description _ h)).
Qed.
Lemma R_find_ex (P : pred R) : (exists x, P x) -> exists n, R_find P n.
Proof. by exists 0%N; rewrite /R_find; case: excluded_middle_informative. Qed.
Lemma R_find_ext (P Q : pred R) : P =1 Q -> R_find P =1 R_find Q.
Proof.
move=> e n. have -> : P = Q by apply: FunctionalExtensionality.functional_extensionality.
by [].
Qed.
Definition R_choiceMixin := Choice.Mixin R_find_some R_find_ex R_find_ext.
Canonical R_choiceType := Eval hnf in ChoiceType R R_choiceMixin.

Fact RplusA : associative Rplus. Proof. by move=> *; rewrite Rplus_assoc. Qed.
Definition R_zmodMixin := ZmodMixin RplusA Rplus_comm Rplus_0_l Rplus_opp_l.
Canonical R_zmodType := Eval hnf in ZmodType R R_zmodMixin.

Fact RmultA : associative Rmult. Proof. by move=> *; rewrite Rmult_assoc. Qed.
Fact R1_neq_0 : R1 != R0. Proof. by apply/eqP/R1_neq_R0. Qed.
Definition R_ringMixin := RingMixin RmultA Rmult_1_l Rmult_1_r Rmult_plus_distr_r
  Rmult_plus_distr_l R1_neq_0.
Canonical R_ringType := Eval hnf in RingType R R_ringMixin.
Canonical R_comRingType := Eval hnf in ComRingType R Rmult_comm.

Definition Rinvx (r : R) := if r != R0 then Rinv r else r.
Definition R_unit (r : R) : bool := r != R0.
Lemma RmultRinvx : {in R_unit, left_inverse R1 Rinvx Rmult}.
Proof. by move=> r; rewrite -topredE /R_unit /Rinvx => /= h; rewrite h Rinv_l //; apply/eqP. Qed.
Lemma RinvxRmult : {in R_unit, right_inverse R1 Rinvx Rmult}.
Proof. by move=> r; rewrite -topredE /R_unit /Rinvx => /= h; rewrite h Rinv_r //; apply/eqP. Qed.
Lemma R_intro_unit x y : Rmult y x = R1 /\ Rmult x y = R1 -> R_unit x.
Proof.
move=> [yx1 _]; apply/eqP => x0; move: yx1; rewrite x0 Rmult_0_r => /esym.
exact: R1_neq_R0.
Qed.
Lemma R_inv_out : {in predC R_unit, Rinvx =1 id}.
Proof. by move=> x; rewrite inE /= /R_unit /Rinvx -if_neg => ->. Qed.
Definition R_unitRingMixin := UnitRingMixin RmultRinvx RinvxRmult R_intro_unit R_inv_out.
Canonical R_unitRingType := Eval hnf in UnitRingType R R_unitRingMixin.
Canonical R_comUnitRingType := Eval hnf in [comUnitRingType of R].
Lemma R_idomainMixin (x y : R) : Rmult x y = R0 -> (x == R0) || (y == R0).
Proof. by move/Rmult_integral => [->|->]; rewrite eqxx ?orbT. Qed.
Canonical R_idomainType := Eval hnf in IdomainType R R_idomainMixin.
Lemma R_fieldMixin : GRing.Field.mixin_of [unitRingType of R].
Proof. by []. Qed.
Canonical R_fieldType := Eval hnf in FieldType R R_fieldMixin.

Lemma R_addE (x y : R) : (x + y)%R = Rplus x y. Proof. by []. Qed.
Lemma R_mulE (x y : R) : (x * y)%R = Rmult x y. Proof. by []. Qed.
Lemma R_oppE (x : R) : (- x)%R = Ropp x. Proof. by []. Qed.
