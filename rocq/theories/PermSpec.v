(* Specification vocabulary for permutations (no model imported) *)
From Coq Require Import List Arith Bool Permutation.
Import ListNotations.

(* a vector lists a bijection of {0..len-1} *)
Definition is_bij (l : list nat) : Prop := Permutation l (seq 0 (length l)).
(* the function on all naturals that a vector of values stands for: identity beyond its end *)
Definition act (l : list nat) (x : nat) : nat := nth x l x.
(* all pairs j < i < n *)
Definition pairs (n : nat) : list (nat * nat) := flat_map (fun i => map (fun j => (i, j)) (seq 0 i)) (seq 0 n).
(* number of inversions of f on {0..n-1} *)
Definition inversions (n : nat) (f : nat -> nat) : nat := length (filter (fun ij => f (fst ij) <? f (snd ij)) (pairs n)).
(* the function that rotates the entries of c and fixes everything else *)
Definition is_cycle_action (c : list nat) (f : nat -> nat) : Prop :=
  (forall i, i < length c -> f (nth i c 0) = nth (S i mod length c) c 0) /\ (forall x, ~ In x c -> f x = x).
