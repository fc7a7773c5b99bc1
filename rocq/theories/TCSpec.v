(* Specification vocabulary for coset enumeration (no model imported).
   Letters: 2i is the i-th generator, 2i+1 its inverse.  A word is a list of letters, read as a product. *)
From Coq Require Import List Arith.
Import ListNotations.

Definition linv (d : nat) : nat := if Nat.even d then S d else Nat.pred d.
(* u H = v H in the group <generators | rels>, H generated by the words subs: the least equivalence that is
   compatible with left multiplication, cancels inverse letters, erases relators and identifies every word of subs with 1 *)
Inductive coset_eq (ng : nat) (rels subs : list (list nat)) : list nat -> list nat -> Prop :=
| ce_refl u : coset_eq ng rels subs u u
| ce_sym u v : coset_eq ng rels subs u v -> coset_eq ng rels subs v u
| ce_trans u v w : coset_eq ng rels subs u v -> coset_eq ng rels subs v w -> coset_eq ng rels subs u w
| ce_left d u v : coset_eq ng rels subs u v -> coset_eq ng rels subs (d :: u) (d :: v)
| ce_cancel d u : d < 2 * ng -> coset_eq ng rels subs (d :: linv d :: u) u
| ce_rel r u : In r rels -> coset_eq ng rels subs (r ++ u) u
| ce_sub s : In s subs -> coset_eq ng rels subs s [].
Definition word (ng : nat) (w : list nat) : Prop := forall d, In d w -> d < 2 * ng.
(* p g is the action of the g-th generator on the points 0..n-1; the letter 2g acts by it and 2g+1 by its inverse *)
Definition letter_acts (p : nat -> nat -> nat) (d x y : nat) : Prop :=
  if Nat.even d then p (Nat.div2 d) x = y else p (Nat.div2 d) y = x.
(* the word w, as a product acting from the left, takes x to y *)
Fixpoint word_acts (n : nat) (p : nat -> nat -> nat) (w : list nat) (x y : nat) : Prop :=
  match w with
  | [] => x = y
  | d :: w' => exists z, z < n /\ word_acts n p w' x z /\ letter_acts p d z y
  end.
Definition bijective_on (n : nat) (f : nat -> nat) : Prop :=
  (forall x, x < n -> f x < n) /\ (forall x y, x < n -> y < n -> f x = f y -> x = y) /\ (forall y, y < n -> exists x, x < n /\ f x = y).
(* generator g acts on a point by the g-th list of images; points beyond a list are fixed *)
Definition gen_action (ps : list (list nat)) (g x : nat) : nat := nth x (nth g ps []) x.
(* a word's value in a group, generator i being sent to val i *)
Fixpoint word_value {A} (e : A) (inv : A -> A) (op : A -> A -> A) (val : nat -> A) (w : list nat) : A :=
  match w with [] => e | d :: w' => op (if Nat.even d then val (Nat.div2 d) else inv (val (Nat.div2 d))) (word_value e inv op val w') end.
