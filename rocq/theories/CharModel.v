(* Model of rings/src/linear/matrix.rs l.1420-1475: presentation matrix, minimal and characteristic polynomial of a square matrix over a field.
   T is the field, P the ring of polynomials over it with its constants and its variable; div, ffa, xgcd are the operations of P.
   ifuel bounds the inner loop of the Smith algorithm (MatModel).  None is a panic. *)
From Coq Require Import List Arith NArith Bool QArith.
From Verif Require Import RingSpec RingModel PermModel MatModel PolyModel.
Import ListNotations.
Local Open Scope nat_scope.

Section Char.
Context {R P : ring_ops}.
Variable const : T R -> T P.
Variable var : T P.
Variable div : div_op P.
Variable ffa : ffa_op P.
Variable xgcd : T P -> T P -> T P * T P * T P.
(* l.1421-1439 *)
Definition presentation_matrix (m : matrix (T R)) : option (res (matrix (T P))) :=
  let n := rows m in
  if negb (n =? cols m) then Some (Err NotSquare)
  else do d <- diag (repeat var n); do nd <- neg d; do s <- unwrap (add (apply_map const m) nd); Some (Ok s).
(* l.1441-1453; the last arm panics on the other errors *)
Definition minimal_polynomial (ifuel : nat) (m : matrix (T R)) : option (res (T P)) :=
  do pm <- presentation_matrix m;
  match pm with
  | Ok pres =>
      do r <- smith_algorithm div ffa xgcd ifuel pres;
      let '(_, s, _, k) := r in
      assert! 0 <? k;                                                   (* debug_assert; s.at(k - 1, ..) overflows otherwise *)
      do x <- get s (k - 1) (k - 1); Some (Ok x)
  | Err NotSquare => Some (Err NotSquare)
  | Err _ => None
  end.
(* l.1455-1474 *)
Definition characteristic_polynomial (ifuel : nat) (m : matrix (T R)) : option (res (T P)) :=
  do pm <- presentation_matrix m;
  match pm with
  | Ok pres =>
      do r <- smith_algorithm div ffa xgcd ifuel pres;
      let '(_, s, _, k) := r in
      assert! 0 <? k;
      do c <- forM (range 0 k) (fun i c => do x <- get s i i; Some (rmul c x)) r1;
      Some (Ok c)
  | Err NotSquare => Some (Err NotSquare)
  | Err _ => None
  end.
End Char.

(* polynomial/quotient.rs l.68-72 *)
From Verif Require Import QpModel.
Definition q_min_poly {R P : ring_ops} (const : T R -> T P) (var : T P) (div : div_op P) (ffa : ffa_op P) (xgcd : T P -> T P -> T P * T P * T P)
  (kdiv : div_op R) (m : list (T R)) (ifuel : nat) (a : list (T R)) : option (T P) :=
  do x <- col_multiplication_matrix kdiv m a; unwrap (minimal_polynomial const var div ffa xgcd ifuel x).
