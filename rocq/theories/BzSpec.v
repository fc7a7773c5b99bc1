(* What the Berlekamp-Zassenhaus algorithm needs from the factoriser of polynomials modulo p. *)
From Coq Require Import List NArith ZArith.
From mathcomp Require Import all_ssreflect all_algebra.
From Verif Require Import ZRing MatInst FfSpec BoundProofs2 BoundProps.
Set Implicit Arguments.
Unset Strict Implicit.
Unset Printing Implicit Defensive.
Local Open Scope ring_scope.
(* reduction modulo p of the polynomial with coefficient vector f *)
Definition modp (p : nat) (f : list Z) : {poly 'F_p} := map_poly (zin [ringType of 'F_p]) (ZP f).
(* mf never panics on a polynomial that is nonzero modulo the prime p, and returns its monic irreducible factors modulo p, represented by integer
   polynomials that are monic, and their exponents *)
Definition mfactor_right (mf : Z -> list Z -> option (list (list Z * N))) : Prop := forall (p : nat) (f : list Z), prime p -> modp p f != 0 ->
  exists l u, [/\ mf (Z.of_nat p) f = Some l, forall x, List.In x l -> ZP x.1 \is monic &
    irreducible_factorization (F := [finFieldType of 'F_p]) (modp p f) u [seq (modp p x.1, N.to_nat x.2) | x <- l]].
