(* The real numbers of Coq's standard library as a mathcomp field, so that the
   tensors and matrices of the model can carry real entries, and a small
   calculus of partial derivatives on top of Coquelicot's Derive.
   Not tied to a file of /repo: this is the meaning of "derivative" used by the
   specifications and by the model of autograd. *)
From Coq Require Import Reals ClassicalEpsilon FunctionalExtensionality Lra.
From mathcomp Require Import all_ssreflect all_algebra.
From Coquelicot Require Import Coquelicot.
Set Implicit Arguments.
Unset Strict Implicit.
Unset Printing Implicit Defensive.

(* from here on, expressions of type R are read in mathcomp's ring_scope *)
Bind Scope ring_scope with R.

Definition Req_bool (x y : R) : bool := if Req_EM_T x y then true else false.
Lemma Req_boolP : Equality.axiom Req_bool.
Proof. by move=> x y; rewrite /Req_bool; case: Req_EM_T => h; constructor. Qed.
Definition R_eqMixin := EqMixin Req_boolP.
Canonical R_eqType := EqType R R_eqMixin.

Definition R_find (P : pred R) (n : nat) : option R :=
  match excluded_middle_informative (exists x, P x) with
  | left h => Some (sval (constructive_indefinite_description _ h))
  | right _ => None
  end.
Lemma R_find_correct P n x : R_find P n = Some x -> P x.
Proof.
rewrite /R_find; case: excluded_middle_informative => // h [<-].
by case: constructive_indefinite_description.
Qed.
Lemma R_find_complete (P : pred R) : (exists x, P x) -> exists n, R_find P n.
Proof. by move=> h; exists 0%N; rewrite /R_find; case: excluded_middle_informative. Qed.
Lemma R_find_ext (P Q : pred R) : P =1 Q -> R_find P =1 R_find Q.
Proof. by move=> h; have -> : P = Q by apply: functional_extensionality. Qed.
Definition R_choiceMixin : choiceMixin R :=
  Choice.Mixin R_find_correct R_find_complete R_find_ext.
Canonical R_choiceType := ChoiceType R R_choiceMixin.

Lemma RplusA : associative Rplus. Proof. by move=> x y z; rewrite Rplus_assoc. Qed.
Lemma RplusC : commutative Rplus. Proof. exact: Rplus_comm. Qed.
Lemma Rplus0 : left_id R0 Rplus. Proof. exact: Rplus_0_l. Qed.
Lemma RplusN : left_inverse R0 Ropp Rplus. Proof. exact: Rplus_opp_l. Qed.
Definition R_zmodMixin := ZmodMixin RplusA RplusC Rplus0 RplusN.
Canonical R_zmodType := ZmodType R R_zmodMixin.

Lemma RmultA : associative Rmult. Proof. by move=> x y z; rewrite Rmult_assoc. Qed.
Lemma Rmult1 : left_id R1 Rmult. Proof. exact: Rmult_1_l. Qed.
Lemma RmultDl : left_distributive Rmult Rplus. Proof. by move=> x y z; exact: Rmult_plus_distr_r. Qed.
Lemma R1_neq0 : R1 != R0. Proof. by apply/eqP; exact: R1_neq_R0. Qed.
Definition R_ringMixin := ComRingMixin RmultA Rmult_comm Rmult1 RmultDl R1_neq0.
Canonical R_ringType := RingType R R_ringMixin.
Canonical R_comRingType := ComRingType R Rmult_comm.

Definition Rinv0 (x : R) : R := if x == R0 then R0 else Rinv x.
Lemma RmulV : forall x : R, x != R0 -> Rmult (Rinv0 x) x = R1.
Proof. by move=> x; rewrite /Rinv0 => h; rewrite (negbTE h); apply: Rinv_l; apply/eqP. Qed.
Lemma Rinv00 : Rinv0 R0 = R0.
Proof. by rewrite /Rinv0 eqxx. Qed.
Definition R_unitRingMixin := FieldUnitMixin RmulV Rinv00.
Canonical R_unitRingType := UnitRingType R R_unitRingMixin.
Canonical R_comUnitRingType := [comUnitRingType of R].
Definition R_fieldMixin : GRing.Field.mixin_of R_unitRingType.
Proof. by move=> x; apply. Qed.
Canonical R_idomainType := IdomainType R (FieldIdomainMixin R_fieldMixin).
Canonical R_fieldType := FieldType R R_fieldMixin.
