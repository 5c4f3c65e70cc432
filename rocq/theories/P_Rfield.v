(** Coq's real numbers as a mathcomp field, so that mathcomp's determinant theory can be
    used as the specification of the matrix routines.  The choice structure required by
    mathcomp's hierarchy comes from Coq.Logic.ClassicalEpsilon. *)
From Coq Require Import Reals Epsilon ClassicalEpsilon FunctionalExtensionality.
From mathcomp Require Import all_ssreflect all_algebra.
Set Implicit Arguments.
Unset Strict Implicit.
Unset Printing Implicit Defensive.
Delimit Scope R_scope with RR.

Definition eqr (x y : R) : bool := if Req_EM_T x y then true else false.
Lemma eqrP : Equality.axiom eqr.
Proof. move=> x y; rewrite /eqr; case: Req_EM_T => H; by constructor. Qed.
Canonical R_eqMixin := EqMixin eqrP.
Canonical R_eqType := Eval hnf in EqType R R_eqMixin.

Definition pickR (P : pred R) (n : nat) : option R :=
  let x := epsilon (inhabits 0%RR) (fun y : R => P y) in if P x then Some x else None.
Fact pickR_some P n x : pickR P n = Some x -> P x.
Proof. by rewrite /pickR; case: (boolP (P _)) => // Px [<-]. Qed.
Fact pickR_ex (P : pred R) : (exists x : R, P x) -> exists n, pickR P n.
Proof. by move=> Q; exists 0%N; rewrite /pickR (@epsilon_spec R (inhabits 0%RR) (fun y : R => P y) Q). Qed.
Fact pickR_ext (P Q : pred R) : P =1 Q -> pickR P =1 pickR Q.
Proof.
  move=> PQ n; rewrite /pickR.
  have E : (fun y : R => is_true (P y)) = (fun y : R => is_true (Q y)).
  { by apply functional_extensionality => y; rewrite PQ. }
  by rewrite E PQ.
Qed.
Definition R_choiceMixin : choiceMixin R := Choice.Mixin pickR_some pickR_ex pickR_ext.
Canonical R_choiceType := Eval hnf in ChoiceType R R_choiceMixin.

Fact RplusA : associative Rplus. Proof. by move=> x y z; rewrite Rplus_assoc. Qed.
Definition R_zmodMixin := ZmodMixin RplusA Rplus_comm Rplus_0_l Rplus_opp_l.
Canonical R_zmodType := Eval hnf in ZmodType R R_zmodMixin.

Fact RmultA : associative Rmult. Proof. by move=> x y z; rewrite Rmult_assoc. Qed.
Fact Rmult_distl : left_distributive Rmult Rplus.
Proof. by move=> x y z; rewrite Rmult_plus_distr_r. Qed.
Fact Rmult_distr : right_distributive Rmult Rplus.
Proof. by move=> x y z; rewrite Rmult_plus_distr_l. Qed.
Fact R1_neq_0 : 1%RR != 0%RR :> R. Proof. by apply/eqP => E; apply R1_neq_R0. Qed.
Definition R_ringMixin := RingMixin RmultA Rmult_1_l Rmult_1_r Rmult_distl Rmult_distr R1_neq_0.
Canonical R_ringType := Eval hnf in RingType R R_ringMixin.
Canonical R_comRingType := Eval hnf in ComRingType R Rmult_comm.

Definition Rinvx (r : R) : R := if r == 0%RR then r else Rinv r.
Fact RmultRinvx : {in [pred r : R | r != 0%RR], left_inverse 1%RR Rinvx Rmult}.
Proof.
  move=> r; rewrite inE /Rinvx => /negPf H; rewrite H.
  by rewrite Rinv_l // => E; rewrite E eqxx in H.
Qed.
Fact RinvxRmult : {in [pred r : R | r != 0%RR], right_inverse 1%RR Rinvx Rmult}.
Proof. by move=> r Hr; rewrite Rmult_comm RmultRinvx. Qed.
Fact intro_unit_R x y : Rmult y x = 1%RR /\ Rmult x y = 1%RR -> x \in [pred r : R | r != 0%RR].
Proof.
  case=> H _; rewrite inE; apply/eqP => E. rewrite E Rmult_0_r in H.
  by apply R1_neq_R0.
Qed.
Fact Rinvx_out : {in predC [pred r : R | r != 0%RR], Rinvx =1 id}.
Proof. by move=> r; rewrite !inE negbK /Rinvx => ->. Qed.
Definition R_unitRingMixin := UnitRingMixin RmultRinvx RinvxRmult intro_unit_R Rinvx_out.
Canonical R_unitRingType := Eval hnf in UnitRingType R R_unitRingMixin.
Canonical R_comUnitRingType := Eval hnf in [comUnitRingType of R].
Lemma R_idomainMixin (x y : R) : Rmult x y = 0%RR -> (x == 0%RR) || (y == 0%RR).
Proof.
  move/Rmult_integral => [->|->]; by rewrite eqxx ?orbT.
Qed.
Canonical R_idomainType := Eval hnf in IdomainType R R_idomainMixin.
Lemma R_fieldMixin : GRing.Field.mixin_of [unitRingType of R].
Proof. done. Qed.
Definition R_fieldIdomainMixin := FieldIdomainMixin R_fieldMixin.
Canonical R_fieldType := FieldType R R_fieldMixin.
