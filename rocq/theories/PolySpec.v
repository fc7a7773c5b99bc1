(* Specifications for polynomial resultants and discriminants. *)
From mathcomp Require Import all_ssreflect all_algebra.
Set Implicit Arguments.
Unset Strict Implicit.
Unset Printing Implicit Defensive.
Import GRing.Theory.
Local Open Scope ring_scope.

Section S.
Variable R : comRingType.
(* The Sylvester matrix of A = A_m x^m + ... + A_0 and B = B_n x^n + ... + B_0, as in textbooks: n shifted rows A_m ... A_0 above m shifted
   rows B_n ... B_0
       A_m A_{m-1} ... A_0
           A_m     ... A_1 A_0
       ...
       B_n B_{n-1} ... B_0
           B_n     ... B_1 B_0                                                                                             *)
Definition sylvester (m n : nat) (A B : {poly R}) : 'M[R]_(m + n) :=
  \matrix_(i < m + n, c < m + n)
    if (i < n)%N then (if (i <= c <= i + m)%N then A`_(m + i - c) else 0)
    else (if (i - n <= c <= i - n + n)%N then B`_(n + (i - n) - c) else 0).
Definition pdeg (A : {poly R}) : nat := (size A).-1.
(* Res(A, B) *)
Definition Res (A B : {poly R}) : R := \det (sylvester (pdeg A) (pdeg B) A B).
(* divisibility in R and exact divisibility in R[x] *)
Definition divides (x y : R) := exists q, y = q * x.
Definition pdivides (A B : {poly R}) := exists Q, B = Q * A.
(* no non-unit constant divides all coefficients *)
Definition primitive (P : {poly R}) := forall d, (forall i, divides d P`_i) -> divides d 1.
End S.
