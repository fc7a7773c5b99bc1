(* Z and Q of the Coq library inside a numeric field. *)
From Coq Require Import List NArith ZArith QArith Qabs Bool.
From mathcomp Require Import all_ssreflect all_algebra.
From mathcomp Require Import zify.
From Coq Require Import Lia.
From Verif Require Import RingSpec RingModel MatSpec ZRing PolyModel PolyProofs BoundModel.
Close Scope rs_scope. Close Scope Q_scope.
Set Implicit Arguments.
Unset Strict Implicit.
Unset Printing Implicit Defensive.
Import Order.TTheory GRing.Theory Num.Theory.
Local Delimit Scope Z_scope with Z.
Local Open Scope ring_scope.

(* the integer z as an element of a ring, and the rational q as an element of a field *)
Definition zin (R : ringType) (z : Z) : R := match z with Z0 => 0 | Zpos p => (Pos.to_nat p)%:R | Zneg p => - (Pos.to_nat p)%:R end.
Definition qin (F : fieldType) (q : Q) : F := zin F (Qnum q) / (Pos.to_nat (Qden q))%:R.

Section Zin.
Variable R : ringType.
Lemma zin_nat n : zin R (Z.of_nat n) = n%:R.
Proof. case: n => [|n] //. by rewrite /zin /= SuccNat2Pos.id_succ. Qed.
Lemma zin_opp z : zin R (Z.opp z) = - zin R z.
Proof. case: z => [|p|p] //=; by rewrite ?oppr0 ?opprK. Qed.
Lemma zin_sub n m : zin R (Z.of_nat n - Z.of_nat m)%Z = n%:R - m%:R.
Proof.
  case: (leqP m n) => H.
  - have -> : (Z.of_nat n - Z.of_nat m)%Z = Z.of_nat (n - m)%N by lia. by rewrite zin_nat natrB.
  - have -> : (Z.of_nat n - Z.of_nat m)%Z = Z.opp (Z.of_nat (m - n)%N) by lia. by rewrite zin_opp zin_nat natrB ?opprB // ltnW.
Qed.
Lemma zrep z : exists n m, z = (Z.of_nat n - Z.of_nat m)%Z.
Proof. case: (Z.leb_spec Z0 z) => H; [exists (Z.to_nat z), 0%N|exists 0%N, (Z.to_nat (Z.opp z))]; lia. Qed.
Lemma zin_add x y : zin R (Z.add x y) = zin R x + zin R y.
Proof.
  have [a [b ->]] := zrep x. have [c [d ->]] := zrep y. have -> : (Z.of_nat a - Z.of_nat b + (Z.of_nat c - Z.of_nat d))%Z = (Z.of_nat (a + c)%N - Z.of_nat (b + d)%N)%Z by lia.
  by rewrite !zin_sub !natrD opprD addrACA.
Qed.
Lemma zin_mul x y : zin R (Z.mul x y) = zin R x * zin R y.
Proof.
  have [a [b ->]] := zrep x. have [c [d ->]] := zrep y. have -> : ((Z.of_nat a - Z.of_nat b) * (Z.of_nat c - Z.of_nat d))%Z = (Z.of_nat (a * c + b * d)%N - Z.of_nat (a * d + b * c)%N)%Z by lia.
  rewrite !zin_sub !natrD !natrM mulrBl !mulrBr !opprD opprK. by rewrite addrACA [b%:R * d%:R - _]addrC.
Qed.
Lemma zin_rmorphism : rmorphism (zin R : Z_ringType -> R).
Proof. split; last by split=> [x y|]; [exact: zin_mul|]. move=> x y. rewrite -[RHS]/(zin R x - zin R y) -zin_opp -zin_add. by []. Qed.
End Zin.
Canonical zin_additive (R : ringType) := Additive (zin_rmorphism R).
Canonical zin_rmorph (R : ringType) := RMorphism (zin_rmorphism R).

Section Qin.
Variable F : numFieldType.
Lemma pos_neq0 p : (Pos.to_nat p)%:R != 0 :> F.
Proof. rewrite pnatr_eq0. have := Pos2Nat.is_pos p. by case: (Pos.to_nat p) => // /Nat.lt_irrefl. Qed.
Lemma zin_norm z : zin F (Z.abs z) = `|zin F z|.
Proof. case: z => [|p|p] /=; by rewrite ?normr0 ?normrN ?normr_nat. Qed.
Lemma zin_ge0 z : Z.le Z0 z -> 0 <= zin F z.
Proof. case: z => [|p|p] //= _; rewrite ?ler0n //. Qed.
Lemma zin_le x y : Z.le x y -> zin F x <= zin F y.
Proof. move=> H. rewrite -subr_ge0 -zin_opp -zin_add. apply: zin_ge0. lia. Qed.
Lemma zin_inj (x : Z) : zin F x = 0 -> x = Z0.
Proof. case: x => [|p|p] //=; rewrite -?[- _ = 0]/(_) => /eqP; rewrite ?oppr_eq0 (negPf (pos_neq0 p)) //. Qed.
Lemma qin_add x y : qin F (Qplus x y) = qin F x + qin F y.
Proof. rewrite /qin /Qplus. cbn [Qnum Qden]. rewrite zin_add !zin_mul Pos2Nat.inj_mul multE natrM addf_div ?pos_neq0 //. Qed.
Lemma qin_mul x y : qin F (Qmult x y) = qin F x * qin F y.
Proof. by rewrite /qin /Qmult; cbn [Qnum Qden]; rewrite zin_mul Pos2Nat.inj_mul multE natrM mulf_div. Qed.
Lemma qin_Z z : qin F (inject_Z z) = zin F z.
Proof. by rewrite /qin /= divr1. Qed.
Lemma qin_le x y : Qle x y -> qin F x <= qin F y.
Proof.
  rewrite /Qle /qin => H. have P1 p : 0 < (Pos.to_nat p)%:R :> F by rewrite lt_def pos_neq0 ler0n. rewrite ler_pdivr_mulr // mulrAC ler_pdivl_mulr //. have := zin_le H. by rewrite !zin_mul.
Qed.
End Qin.
