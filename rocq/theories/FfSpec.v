(* C65-C67: what a factorisation of a polynomial over a field is.  Nothing here refers to the model. *)
From mathcomp Require Import all_ssreflect all_algebra.
Set Implicit Arguments.
Unset Strict Implicit.
Unset Printing Implicit Defensive.
Import GRing.Theory.
Local Open Scope ring_scope.

Section Spec.
Variable F : fieldType.
Implicit Types (A B : {poly F}).
(* only constants divide A twice *)
Definition squarefree A : Prop := forall B, B * B %| A -> (size B <= 1)%N.
(* u times the product of the x.1 ^ x.2 *)
Definition expands_to A (u : F) (l : seq ({poly F} * nat)) : Prop := u != 0 /\ A = u *: \prod_(x <- l) x.1 ^+ x.2.
Definition pairwise_coprime (l : seq {poly F}) : Prop := forall i j, (i < j < size l)%N -> coprimep l`_i l`_j.
(* unit times a product of powers, with distinct exponents, of pairwise coprime squarefree monic nonconstant polynomials *)
Record squarefree_factorization A (u : F) (l : seq ({poly F} * nat)) : Prop := {
  sqf_expands : expands_to A u l;
  sqf_monic : forall x, x \in l -> x.1 \is monic /\ (1 < size x.1)%N;
  sqf_sqfree : forall x, x \in l -> squarefree x.1;
  sqf_coprime : pairwise_coprime (map fst l);
  sqf_exps : uniq (map snd l) /\ forall x, x \in l -> (0 < x.2)%N }.
(* unit times a product of powers of distinct monic irreducible polynomials *)
Record irreducible_factorization A (u : F) (l : seq ({poly F} * nat)) : Prop := {
  irf_expands : expands_to A u l;
  irf_irreducible : forall x, x \in l -> [/\ x.1 \is monic, irreducible_poly x.1 & (0 < x.2)%N];
  irf_distinct : uniq (map fst l) }.
(* unit times a product of powers of pairwise coprime squarefree monic nonconstant polynomials, each labelled with a degree that all
   its irreducible factors have; no two with the same label and the same exponent *)
Record distinct_degree_factorization A (u : F) (l : seq (nat * {poly F} * nat)) : Prop := {
  ddf_expands : u != 0 /\ A = u *: \prod_(x <- l) x.1.2 ^+ x.2;
  ddf_monic : forall x, x \in l -> [/\ x.1.2 \is monic, (1 < size x.1.2)%N & squarefree x.1.2];
  ddf_degree : forall x, x \in l -> forall B, irreducible_poly B -> B %| x.1.2 -> (size B).-1 = x.1.1;
  ddf_coprime : pairwise_coprime (map (fun x => x.1.2) l);
  ddf_exps : uniq (map (fun x => (x.1.1, x.2)) l) /\ forall x, x \in l -> (0 < x.2)%N }.
End Spec.
