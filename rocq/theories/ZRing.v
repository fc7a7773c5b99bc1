(* The integers Z of the Coq standard library as a mathcomp integral domain (so that theorems about matrices over an idomainType
   apply to the model of Integer).  All laws are those of Coq's ZArith. *)
From Coq Require Import ZArith Lia.
From mathcomp Require Import all_ssreflect all_algebra.
Set Implicit Arguments.
Unset Strict Implicit.
Unset Printing Implicit Defensive.

Lemma Z_eqP : Equality.axiom Z.eqb. Proof. by move=> x y; apply: (iffP idP) => [/Z.eqb_eq|->] //; apply: Z.eqb_refl. Qed.
Canonical Z_eqType := Eval hnf in EqType Z (EqMixin Z_eqP).
Definition Z_code (z : Z) : nat + nat := match z with Z0 => inl 0 | Zpos p => inl (Pos.to_nat p) | Zneg p => inr (Pos.to_nat p) end.
Definition Z_decode (c : nat + nat) : Z := match c with inl n => Z.of_nat n | inr n => Z.opp (Z.of_nat n) end.
Lemma Z_codeK : cancel Z_code Z_decode. Proof. case=> //= p; by rewrite positive_nat_Z. Qed.
Canonical Z_choiceType := Eval hnf in ChoiceType Z (CanChoiceMixin Z_codeK).
Canonical Z_countType := Eval hnf in CountType Z (CanCountMixin Z_codeK).
Definition Z_zmodMixin := ZmodMixin Z.add_assoc Z.add_comm Z.add_0_l Z.add_opp_diag_l.
Canonical Z_zmodType := Eval hnf in ZmodType Z Z_zmodMixin.
Lemma Z_1_neq_0 : is_true (Zpos xH != Z0). Proof. by []. Qed.
Definition Z_ringMixin := ComRingMixin Z.mul_assoc Z.mul_comm Z.mul_1_l Z.mul_add_distr_r Z_1_neq_0.
Canonical Z_ringType := Eval hnf in RingType Z Z_ringMixin.
Canonical Z_comRingType := Eval hnf in ComRingType Z Z.mul_comm.
Definition Z_unit : pred Z := fun z => (z == Zpos xH) || (z == Zneg xH).
Definition Z_invr (z : Z) : Z := z.
Lemma Z_mulVz : {in Z_unit, left_inverse 1%R Z_invr *%R}.
Proof. by move=> z; rewrite unfold_in /Z_unit => /orP [] /eqP ->. Qed.
Lemma Z_unitPl : forall x y, (y * x = 1)%R -> Z_unit x.
Proof.
  move=> x y H. have {}H : Z.mul y x = Zpos xH by []. rewrite /Z_unit.
  have: x = Zpos xH \/ x = Zneg xH by apply: (Z.mul_eq_1 x y); rewrite Z.mul_comm.
  by case=> ->.
Qed.
Lemma Z_invr_out : {in [predC Z_unit], Z_invr =1 id}. Proof. by []. Qed.
Definition Z_unitRingMixin := ComUnitRingMixin Z_mulVz Z_unitPl Z_invr_out.
Canonical Z_unitRing := Eval hnf in UnitRingType Z Z_unitRingMixin.
Canonical Z_comUnitRing := Eval hnf in [comUnitRingType of Z].
Lemma Z_idomain : forall x y : Z, (x * y = 0)%R -> (x == 0%R) || (y == 0%R).
Proof. move=> x y H. have := proj1 (Z.mul_eq_0 x y) H. by case=> ->; rewrite eqxx ?orbT. Qed.
Canonical Z_idomainType := Eval hnf in IdomainType Z Z_idomain.
