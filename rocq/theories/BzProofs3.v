(* The candidate factor built from a product of modular factors. *)
From Coq Require Import List NArith ZArith QArith Qabs Bool.
From mathcomp Require Import all_ssreflect all_algebra.
From mathcomp Require Import zify.
From Coq Require Import Lia.
From Verif Require Import RingSpec RingModel RingProofs2 PermModel MatModel MatSpec ZRing MatInst PolyModel PolySpec PolyProofs PolyProofs2 PolyProofs3 PolyProofs11 PolyProofs12 PolyProps PolyProps3 HenselSpec HenselModel HenselProofs HenselProofs2 BoundProofs2 BoundProps BzModel BzProofs1 BzProofs2.
Close Scope rs_scope. Close Scope Q_scope.
Set Implicit Arguments.
Unset Strict Implicit.
Unset Printing Implicit Defensive.
Import GRing.Theory.
Local Open Scope ring_scope.

Lemma q_remZ (m c : Z) : m <> Z0 -> @q_rem ZO Zquorem m c = Z.modulo c m.
Proof. move=> H. rewrite /q_rem /rem /Zquorem /Z_quorem. have -> : Z.eqb m Z0 = false by exact/Z.eqb_neq. have -> : is_zero (R := ZO) m = false by exact/Z.eqb_neq. by []. Qed.
Lemma sym_lift_eq (m x y c : Z) : Z.lt (Z.mul 2 (Z.abs x)) m -> y = Z.add x (Z.mul m c) -> sym_lift m y = x.
Proof.
  move=> Hx ->. rewrite /sym_lift q_remZ; last lia. have -> : Z.add x (Z.mul m c) = Z.add x (Z.mul c m) by lia. rewrite Z.mod_add; last lia.
  have Hd : Z.le (Z.mul 2 (Z.div m 2)) m by apply: Z.mul_div_le; lia. have Hd2 : Z.lt m (Z.mul 2 (Z.add (Z.div m 2) 1)) by have := Z.mul_succ_div_gt m 2; lia.
  case: (Z.leb_spec Z0 x) => Hx0.
  - rewrite Z.mod_small; last lia. case: Z.ltb_spec; lia.
  - have -> : Z.modulo x m = Z.add x m. { symmetry. apply: (Z.mod_unique _ _ (-1)); lia. } case: Z.ltb_spec; lia.
Qed.
Lemma sym_lift_cong (m y : Z) : m <> Z0 -> exists c, sym_lift m y = Z.add y (Z.mul m c).
Proof.
  move=> Hm. rewrite /sym_lift q_remZ //. have E := Z.div_mod y m Hm. case: Z.ltb_spec => _; [exists (Z.sub (Z.opp (Z.div y m)) 1)|exists (Z.opp (Z.div y m))]; nia.
Qed.
Lemma sym_lift0 m : Z.lt Z0 m -> sym_lift m Z0 = Z0.
Proof. move=> H. apply: (@sym_lift_eq m Z0 Z0 Z0); lia. Qed.
Section Cand.
Variables (M lc : Z).
Hypothesis M0 : Z.lt Z0 M.
Notation Y prod := (Poly (map (sym_lift M) (@p_mul ZO [:: lc] prod)) : {poly ZR}).
Lemma coefY prod k : (Y prod)`_k = sym_lift M ((lc *: (Poly prod : {poly ZR}))`_k).
Proof.
  have -> : lc *: (Poly prod : {poly ZR}) = Poly (@p_mul ZO [:: lc] prod : seq ZR) by rewrite (@p_mulE ZR) Poly_polyseq Poly1 mul_polyC.
  rewrite !coef_Poly. set l := p_mul _ _. case: (ltnP k (size l)) => Hk; first by rewrite (nth_map (0 : ZR)). rewrite !nth_default ?size_map //. by rewrite sym_lift0.
Qed.
Lemma Y_cong prod : @cong ZR M (Y prod) (lc *: Poly prod).
Proof.
  move=> k. rewrite coefY. set c := (lc *: (Poly prod : {poly ZR}))`_k. have [|d E] := @sym_lift_cong M c; first by move=> Z; move: M0; rewrite Z. exists d. rewrite -[_ - _]/(Z.sub (sym_lift M c) c) E -[RHS]/(Z.mul M d). clearbody c. lia.
Qed.
Lemma Y_true prod (A : {poly ZR}) : @cong ZR M A (lc *: Poly prod) -> (forall j, Z.lt (Z.mul 2 (Z.abs A`_j)) M) -> Y prod = A.
Proof.
  move=> C B. apply/polyP => k. rewrite coefY. have [d Ed] := C k. have {}Ed : Z.sub A`_k (lc *: (Poly prod : {poly ZR}))`_k = Z.mul M d := Ed. apply: (@sym_lift_eq M _ _ (Z.opp d)); first exact: B. 
  move: Ed. set a := A`_k. set b := (lc *: (Poly prod : {poly ZR}))`_k. clearbody a b. lia.
Qed.
Lemma candidate_ok prod : (1 < size (Y prod))%N -> exists c g, [/\ candidate M lc prod = Some g, Y prod = c *: (Poly g : {poly ZR}), c != 0 & prim (Poly g : {poly ZR})].
Proof.
  move=> HY. have Y0 : Y prod != 0 by rewrite -size_poly_gt0; exact: ltn_trans HY. have [c [g [E1 E2 E3 E4 _]]] := fp_ok Zidom Zgcd_ok Y0. exists c, g. split=> //.
  rewrite /candidate /primitive_part E1. cbn [obind]. have -> := @p_degreeE ZR g. have : (1 < size (Poly g : {poly ZR}))%N by move: HY; rewrite E2 size_scale. by case: (size _) => [|[|k]].
Qed.
End Cand.
