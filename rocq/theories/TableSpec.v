(* Specification vocabulary for composition tables, partitions, cosets (no model imported) *)
From Coq Require Import List Arith Sorting.Sorted.
From Verif Require Import GroupSpec.
Import ListNotations.

(* classes/lookup is the partition of {0..n-1} into the classes of the relation E: every class is a non-empty set (ascending list),
   class number k holds exactly the elements whose lookup is k, and two elements share a class iff they are related *)
Definition partitions_by (n : nat) (E : nat -> nat -> Prop) (classes : list (list nat)) (lookup : list nat) : Prop :=
  length lookup = n /\
  (forall c, In c classes -> c <> [] /\ StronglySorted lt c) /\
  (forall x, x < n -> nth x lookup 0 < length classes) /\
  (forall k x, k < length classes -> (In x (nth k classes []) <-> x < n /\ nth x lookup 0 = k)) /\
  (forall x y, x < n -> y < n -> (nth x lookup 0 = nth y lookup 0 <-> E x y)).

Section Rel.
Context (V : nat -> Prop) (e : nat) (inv : nat -> nat) (op : nat -> nat -> nat).
(* y is a conjugate of x *)
Definition conjugate (x y : nat) : Prop := exists g, V g /\ y = op (op g x) (inv g).
(* x and y lie in the same left coset gH, respectively right coset Hg, for some g *)
Definition same_left_coset (H : nat -> Prop) (x y : nat) : Prop := exists g h k, V g /\ H h /\ H k /\ x = op g h /\ y = op g k.
Definition same_right_coset (H : nat -> Prop) (x y : nat) : Prop := exists g h k, V g /\ H h /\ H k /\ x = op h g /\ y = op k g.
(* the normal closure of S: the smallest normal subgroup containing S *)
Inductive ncl (S : nat -> Prop) : nat -> Prop :=
| ncl_in x : S x -> ncl S x
| ncl_e : ncl S e
| ncl_inv x : ncl S x -> ncl S (inv x)
| ncl_op x y : ncl S x -> ncl S y -> ncl S (op x y)
| ncl_conj g x : V g -> ncl S x -> ncl S (op (op g x) (inv g)).
End Rel.
(* a choice of one element from every non-empty set, as made by an arbitrary iteration order *)
Definition choice (pick : list nat -> nat) : Prop := forall l, l <> [] -> In (pick l) l.
