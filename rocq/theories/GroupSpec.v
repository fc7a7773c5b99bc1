(* Specification vocabulary for groups (no model imported) *)
From Coq Require Import List Arith ZArith.
Import ListNotations.

(* the elements satisfying V form a group *)
Record is_group {A} (V : A -> Prop) (e : A) (inv : A -> A) (op : A -> A -> A) : Prop := {
  ig_e : V e;
  ig_inv : forall x, V x -> V (inv x);
  ig_op : forall x y, V x -> V y -> V (op x y);
  ig_assoc : forall x y z, V x -> V y -> V z -> op x (op y z) = op (op x y) z;
  ig_idl : forall x, V x -> op e x = x;
  ig_idr : forall x, V x -> op x e = x;
  ig_invl : forall x, V x -> op (inv x) x = e;
  ig_invr : forall x, V x -> op x (inv x) = e;
}.
(* n-fold product x x ... x *)
Fixpoint gpow {A} (e : A) (op : A -> A -> A) (x : A) (n : nat) : A := match n with 0 => e | S m => op x (gpow e op x m) end.
(* the subgroup generated by S: the smallest set containing S and closed under the operations *)
Inductive generated {A} (e : A) (inv : A -> A) (op : A -> A -> A) (S : A -> Prop) : A -> Prop :=
| gen_in x : S x -> generated e inv op S x
| gen_e : generated e inv op S e
| gen_inv x : generated e inv op S x -> generated e inv op S (inv x)
| gen_op x y : generated e inv op S x -> generated e inv op S y -> generated e inv op S (op x y).
(* H is a subgroup of (V, e, inv, op) *)
Definition is_subgroup {A} (V : A -> Prop) (e : A) (inv : A -> A) (op : A -> A -> A) (H : A -> Prop) : Prop :=
  (forall x, H x -> V x) /\ H e /\ (forall x, H x -> H (inv x)) /\ (forall x y, H x -> H y -> H (op x y)).
Definition is_normal {A} (V : A -> Prop) (e : A) (inv : A -> A) (op : A -> A -> A) (H : A -> Prop) : Prop :=
  is_subgroup V e inv op H /\ forall g x, V g -> H x -> H (op (op g x) (inv g)).
(* everything reachable from x0 by the successor relation *)
Inductive reach {A} (step : A -> A -> Prop) (x0 : A) : A -> Prop :=
| reach_0 : reach step x0 x0
| reach_s x y : reach step x0 x -> step x y -> reach step x0 y.
(* f is a homomorphism between two groups given by their elements and products *)
Definition is_hom {A B} (V : A -> Prop) (opA : A -> A -> A) (W : B -> Prop) (opB : B -> B -> B) (f : A -> B) : Prop :=
  (forall x, V x -> W (f x)) /\ forall x y, V x -> V y -> f (opA x y) = opB (f x) (f y).
(* f and g are mutually inverse on V and W *)
Definition mutually_inverse {A B} (V : A -> Prop) (W : B -> Prop) (f : A -> B) (g : B -> A) : Prop :=
  (forall x, V x -> W (f x) /\ g (f x) = x) /\ (forall y, W y -> V (g y) /\ f (g y) = y).
(* a composition table: n elements 0..n-1, product of x and y in row x column y *)
Definition tab_mul (mul : list (list nat)) (x y : nat) : nat := nth y (nth x mul []) 0.
Definition tab_inv (inv : list nat) (x : nat) : nat := nth x inv 0.
Definition is_group_table (n ident : nat) (inv : list nat) (mul : list (list nat)) : Prop :=
  length inv = n /\ length mul = n /\ (forall r, In r mul -> length r = n) /\
  is_group (fun x => x < n) ident (tab_inv inv) (tab_mul mul).
