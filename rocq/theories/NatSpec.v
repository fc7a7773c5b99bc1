(* Specification vocabulary for natural numbers (no model imported) *)
From Coq Require Import NArith List Sorting.Sorted.
Import ListNotations.
Local Open Scope N_scope.

Definition prime_N (p : N) : Prop := 1 < p /\ forall d, (d | p) -> d = 1 \/ d = p.
Definition composite_N (n : N) : Prop := exists a b, 1 < a /\ 1 < b /\ n = a * b.
(* n! and the number of k-subsets of an n-set, by their recurrences *)
Fixpoint fact_spec (n : nat) : N := match n with O => 1 | S m => N.of_nat n * fact_spec m end.
Fixpoint binom_spec (n k : nat) : N := match n, k with _, O => 1 | O, S _ => 0 | S n', S k' => binom_spec n' k' + binom_spec n' (S k') end.
(* product of p^k over a list of (p,k) *)
Fixpoint prod_powers (l : list (N * N)) : N := match l with [] => 1 | (p, k) :: l' => p ^ k * prod_powers l' end.
(* l lists the prime factorisation of n *)
Definition factorisation_of (n : N) (l : list (N * N)) : Prop :=
  NoDup (map fst l) /\ (forall p k, In (p, k) l -> prime_N p /\ 0 < k) /\ prod_powers l = n.
(* Euler's function: the number of 1 <= x <= n coprime to n *)
Definition totient_spec (n : N) : N := N.of_nat (length (filter (fun x => N.gcd (N.of_nat x) n =? 1) (seq 1 (N.to_nat n)))).
(* the multiplicative order of x modulo n is k: the least positive exponent with x^k = 1 mod n *)
Definition mult_order (n x k : N) : Prop := 0 < k /\ x ^ k mod n = 1 mod n /\ forall j, 0 < j -> x ^ j mod n = 1 mod n -> k <= j.
(* the textbook condition tested by one round of Miller-Rabin, for an odd n > 2 *)
Definition strong_probable_prime (n a : N) : Prop :=
  exists s d, n - 1 = 2 ^ s * d /\ d mod 2 = 1 /\ (a ^ d mod n = 1 \/ exists r, r < s /\ a ^ (2 ^ r * d) mod n = n - 1).
