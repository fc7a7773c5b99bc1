(* Specification of matrices as functions of two indices, and of the view operations on them.  No import of the model. *)
From Coq Require Import List Arith Bool.
Import ListNotations.

(* a p by q matrix; only the entries with r < p and c < q count *)
Record smat (A : Type) := SMat { srows : nat; scols : nat; sentry : nat -> nat -> A }.
Arguments SMat {A}. Arguments srows {A}. Arguments scols {A}. Arguments sentry {A}.

Inductive vop (A : Type) := VTranspose | VFlipRows | VFlipCols | VWrite (r c : nat) (v : A).
Arguments VTranspose {A}. Arguments VFlipRows {A}. Arguments VFlipCols {A}. Arguments VWrite {A}.

(* the mathematical matrix after one operation, and whether the operation was legal *)
Definition sstep {A} (s : smat A) (o : vop A) : smat A * bool :=
  match o with
  | VTranspose => (SMat (scols s) (srows s) (fun r c => sentry s c r), true)
  | VFlipRows => (SMat (srows s) (scols s) (fun r c => sentry s (srows s - 1 - r) c), true)
  | VFlipCols => (SMat (srows s) (scols s) (fun r c => sentry s r (scols s - 1 - c)), true)
  | VWrite r c v =>
      if (r <? srows s) && (c <? scols s)
      then (SMat (srows s) (scols s) (fun i j => if (i =? r) && (j =? c) then v else sentry s i j), true)
      else (s, false)
  end.
Fixpoint srun {A} (s : smat A) (os : list (vop A)) : smat A * list bool :=
  match os with
  | [] => (s, [])
  | o :: os' => let '(s1, b) := sstep s o in let '(s2, bs) := srun s1 os' in (s2, b :: bs)
  end.

(* block matrices built from a list *)
Definition sum_rows {A} (l : list (smat A)) : nat := list_sum (map srows l).
Definition sum_cols {A} (l : list (smat A)) : nat := list_sum (map scols l).
(* entry (r, c) of the blocks stacked on top of each other / side by side / along the diagonal; d for an entry outside all blocks *)
Fixpoint stacked {A} (d : A) (l : list (smat A)) (r c : nat) : A :=
  match l with [] => d | m :: l' => if r <? srows m then sentry m r c else stacked d l' (r - srows m) c end.
Fixpoint beside {A} (d : A) (l : list (smat A)) (r c : nat) : A :=
  match l with [] => d | m :: l' => if c <? scols m then sentry m r c else beside d l' r (c - scols m) end.
Fixpoint along_diag {A} (zero : A) (l : list (smat A)) (r c : nat) : A :=
  match l with
  | [] => zero
  | m :: l' => if (r <? srows m) && (c <? scols m) then sentry m r c
               else if (srows m <=? r) && (scols m <=? c) then along_diag zero l' (r - srows m) (c - scols m)
               else zero
  end.
