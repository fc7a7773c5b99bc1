(* Specification of linear and affine lattices of matrices: which set of matrices a lattice value stands for.  Of the model only the
   data types (metamatrix, shape, offset) are used. *)
From Coq Require Import NArith.
From mathcomp Require Import all_ssreflect all_algebra.
From Verif Require Import RingSpec MatModel MatSpec LatModel.
Close Scope rs_scope.
Set Implicit Arguments.
Unset Strict Implicit.
Unset Printing Implicit Defensive.
Import GRing.Theory.
Local Open Scope ring_scope.

Section Spec.
Variable R : comRingType.
(* linear combinations of a finite family of matrices, and linear independence *)
Definition lspan p q k (Bs : 'I_k -> 'M[R]_(p, q)) (M : 'M[R]_(p, q)) : Prop := exists c : 'I_k -> R, M = \sum_i c i *: Bs i.
Definition independent p q k (Bs : 'I_k -> 'M[R]_(p, q)) : Prop := forall c : 'I_k -> R, \sum_i c i *: Bs i = 0 -> forall i, c i = 0.
(* the family written row by row, one matrix per row, as the program stores it *)
Lemma row_lt p q (k : 'I_(p * q)) : (k %/ q < p)%N.
Proof. by case: q k => [|q] k; [case: k => k; rewrite muln0|rewrite ltn_divLR]. Qed.
Lemma col_lt p q (k : 'I_(p * q)) : (k %% q < q)%N.
Proof. by case: q k => [|q] k; [case: k => k; rewrite muln0|rewrite ltn_mod]. Qed.
Definition flat p q k (Bs : 'I_k -> 'M[R]_(p, q)) : 'M[R]_(k, p * q) := \matrix_(i, n) Bs i (Ordinal (row_lt n)) (Ordinal (col_lt n)).
(* l is a lattice of p x q matrices with basis Bs *)
Definition has_basis p q k (l : linlat R) (Bs : 'I_k -> 'M[R]_(p, q)) : Prop :=
  [/\ lrows l = p, lcols l = q, represents (meta l) (flat Bs) & independent Bs].
(* l stands for the set of matrices P *)
Definition is_lattice p q (l : linlat R) (P : 'M[R]_(p, q) -> Prop) : Prop :=
  exists k (Bs : 'I_k -> 'M[R]_(p, q)), has_basis l Bs /\ forall M, P M <-> lspan Bs M.
(* sums of elements of finitely many sets *)
Fixpoint sumset (V : zmodType) (Ps : seq (V -> Prop)) (x : V) : Prop :=
  match Ps with [::] => x = 0 | P :: Ps' => exists y z, [/\ P y, sumset Ps' z & x = y + z] end.
(* an affine lattice is empty or a translate of a linear lattice *)
Definition is_affine p q (l : afflat R) (P : 'M[R]_(p, q) -> Prop) : Prop :=
  [/\ arows l = p, acols l = q & match aelems l with
    | None => forall M, ~ P M
    | Some (o, ll) => exists X Q, [/\ represents o X, is_lattice ll Q & forall M, P M <-> Q (M - X)]
    end].
End Spec.
