(* Specification for C28: congruence of polynomials modulo a ring element.  Does not import any model. *)
From mathcomp Require Import all_ssreflect all_algebra.
Set Implicit Arguments. Unset Strict Implicit. Unset Printing Implicit Defensive.
Import GRing.Theory.
Local Open Scope ring_scope.
(* all coefficients of P - Q are multiples of m *)
Definition cong (R : comRingType) (m : R) (P Q : {poly R}) : Prop := forall k, exists c, P`_k - Q`_k = m * c.
(* P and Q generate the unit ideal modulo m *)
Definition coprime_mod (R : comRingType) (m : R) (P Q : {poly R}) : Prop := exists U V : {poly R}, cong m (U * P + V * Q) 1.
