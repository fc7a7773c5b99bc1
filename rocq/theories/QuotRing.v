(* The quotient of a commutative ring by a proper ideal given by a boolean test, as a mathcomp ring, and as a field if the ideal is maximal. *)
From mathcomp Require Import all_ssreflect all_algebra.
Set Implicit Arguments. Unset Strict Implicit. Unset Printing Implicit Defensive.
Import GRing.Theory.
Local Open Scope ring_scope.
Local Open Scope quotient_scope.
Section Q.
Variable R : comRingType.
Variable I0 : pred R.
Hypothesis H0 : I0 0.
Hypothesis HB : forall x y, I0 x -> I0 y -> I0 (x - y).
Hypothesis HM : forall a x, I0 x -> I0 (a * x).
Hypothesis H1 : ~~ I0 1.
Definition I : {pred R} := [pred x | I0 x].
Fact Ikey : pred_key I. Proof. by []. Qed.
Canonical kI := KeyedPred Ikey.
Lemma I_zmod : zmod_closed I. Proof. split; [exact: H0|exact: HB]. Qed.
Canonical I_opp := OpprPred I_zmod.
Canonical I_add := AddrPred I_zmod.
Canonical I_zp := ZmodPred I_zmod.
Lemma I_prop : proper_ideal I. Proof. split; [exact: H1|move=> a x; exact: HM]. Qed.
Canonical I_idl := MkIdeal I_zp I_prop.
Definition K := [comRingType of {ideal_quot kI}].
Definition phi : R -> K := \pi_({ideal_quot kI}).
Lemma phi_rm : rmorphism phi.
Proof. exact: (GRing.RMorphism.class (pi_rmorphism _)). Qed.
Lemma phiE x : (phi x == 0) = I0 x.
Proof. rewrite -(rmorph0 (RMorphism phi_rm)) /= /phi -Quotient.idealrBE subr0. by []. Qed.
Lemma phi_surj (y : K) : exists x, phi x = y.
Proof. exists (repr y). exact: reprK. Qed.
Hypothesis FI : forall x, ~~ I0 x -> exists y, I0 (y * x - 1).
Lemma KI (y : K) : y != 0 -> exists z, z * y == 1.
Proof.
  have [x <-] := phi_surj y. rewrite phiE => /FI [z Hz]. exists (phi z). rewrite -subr_eq0 -(rmorphM (RMorphism phi_rm)) -(rmorph1 (RMorphism phi_rm)) -(rmorphB (RMorphism phi_rm)). by rewrite /= phiE.
Qed.
Lemma KIe (y : K) : exists z, (y != 0) ==> (z * y == 1).
Proof. have [->|H] := eqVneq y 0; first by exists 0. have [z Hz] := KI H. by exists z. Qed.
Definition Kinv (y : K) : K := if y == 0 then 0 else xchoose (KIe y).
Lemma KmulV : GRing.Field.axiom Kinv.
Proof. move=> y Hy. rewrite /Kinv. have := xchooseP (KIe y). set c := xchoose _. clearbody c. by rewrite Hy (negPf Hy) => /eqP. Qed.
Lemma Kinv0 : Kinv 0 = 0.
Proof. rewrite /Kinv. set c := xchoose _. clearbody c. by rewrite eqxx. Qed.
Definition KUm := FieldUnitMixin KmulV Kinv0.
Definition KU := UnitRingType K KUm.
Definition KCU := [comUnitRingType of KU].
Definition KFM : GRing.Field.mixin_of KU := FieldMixin KmulV Kinv0.
Definition KID := IdomainType KCU (FieldIdomainMixin KFM).
Definition KF := FieldType KID KFM.
End Q.
