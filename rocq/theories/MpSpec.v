(* What the properties of multivariate polynomials are about. A monomial is a list of (variable, power) pairs and stands for the product
   of the powers; a polynomial is a list of (monomial, coefficient) pairs and stands for the sum of the terms. *)
From mathcomp Require Import all_ssreflect all_algebra.
Set Implicit Arguments. Unset Strict Implicit. Unset Printing Implicit Defensive.
Import GRing.Theory.
Local Open Scope ring_scope.
Notation monomial := (seq (nat * nat)).
(* the power of the variable v, the total degree *)
Definition power (m : monomial) (v : nat) : nat := (\sum_(x <- m | x.1 == v) x.2)%N.
Definition total_degree (m : monomial) : nat := (\sum_(x <- m) x.2)%N.
(* variables in increasing order, each once, with a positive power *)
Definition mono_ok (m : monomial) : bool := sorted ltn [seq x.1 | x <- m] && all (fun x => 0 < x.2)%N m.
(* the order: at the smallest variable where they differ, a has the higher power *)
Definition before (a b : monomial) : Prop := exists v, (forall u, (u < v)%N -> power a u = power b u) /\ (power b v < power a v)%N.
(* the order that looks at the total degree first, higher degrees first *)
Definition gbefore (a b : monomial) : Prop := (total_degree b < total_degree a)%N \/ total_degree a = total_degree b /\ before a b.
Section Poly.
Variable R : comRingType.
Notation poly := (seq (monomial * R)).
(* well formed: proper monomials, each at most once; zero coefficients and any order are allowed *)
Definition wf (p : poly) : bool := all (fun t => mono_ok t.1) p && uniq [seq t.1 | t <- p].
Definition coeff (p : poly) (m : monomial) : R := \sum_(t <- p | t.1 == m) t.2.
(* well formed, no zero coefficient, terms in order: what the arithmetic returns *)
Fixpoint in_order (l : seq monomial) : Prop := match l with a :: l' => (forall b, b \in l' -> before a b) /\ in_order l' | [::] => True end.
Definition normal (p : poly) : Prop := [/\ wf p, all (fun t => t.2 != 0) p & in_order [seq t.1 | t <- p]].
(* v occurs in p *)
Definition occurs (v : nat) (p : poly) : bool := has (fun t => has (fun x => x.1 == v) t.1) p.
(* the value when the coefficients are read in A by f and the variable v is th v *)
Definition value (A : comRingType) (f : {rmorphism R -> A}) (th : nat -> A) (p : poly) : A := \sum_(t <- p) f t.2 * \prod_(x <- t.1) th x.1 ^+ x.2.
End Poly.
