(* Specification vocabulary for the `sets` crate. Does not import any model. *)
From Coq Require Import List Arith Sorted.
Import ListNotations.

(* lexicographic order on lists of naturals (the order `Vec<usize>` derives) *)
Inductive lex_lt : list nat -> list nat -> Prop :=
| lex_nil  : forall y t, lex_lt [] (y :: t)
| lex_head : forall x y s t, x < y -> lex_lt (x :: s) (y :: t)
| lex_tail : forall x s t, lex_lt s t -> lex_lt (x :: s) (x :: t).

(* a subset of {0,..,n-1} of size k, written as its strictly increasing list of elements *)
Definition is_k_subset (n k : nat) (s : list nat) : Prop :=
  length s = k /\ StronglySorted lt s /\ Forall (fun x => x < n) s.

(* a partition of n into x parts, each at least lo and satisfying p, in nondecreasing order *)
Definition is_partition (p : nat -> bool) (lo n x : nat) (s : list nat) : Prop :=
  length s = x /\ StronglySorted le s /\ Forall (fun a => lo <= a /\ p a = true) s /\ list_sum s = n.

(* binomial coefficient by Pascal's rule *)
Fixpoint binom (n k : nat) : nat :=
  match n, k with
  | _, 0 => 1
  | 0, S _ => 0
  | S n', S k' => binom n' k' + binom n' (S k')
  end.

(* the observable behaviour of an exhausted-or-not iterator: the first m answers of an iterator
   whose remaining items are l *)
Definition answers {A} (m : nat) (l : list A) : list (option A) :=
  firstn m (map Some l ++ repeat None m).

(* histories for the combination iterator *)
Inductive op := Next | Exclude (a : nat).

(* abstract combination iterator: just the list of subsets still to come *)
Fixpoint abs_run (pending : list (list nat)) (ops : list op) : list (option (list nat)) :=
  match ops with
  | [] => []
  | Next :: ops' =>
      match pending with
      | [] => None :: abs_run [] ops'
      | s :: pending' => Some s :: abs_run pending' ops'
      end
  | Exclude a :: ops' =>
      abs_run (filter (fun s => negb (existsb (Nat.eqb a) s)) pending) ops'
  end.
