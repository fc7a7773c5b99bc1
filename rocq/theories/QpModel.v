(* Model of rings/src/polynomial/quotient.rs l.8-84: K[x]/(m) as a vector space over the field K.
   The structure is given by its modulus m; polynomials are coefficient vectors as in PolyModel, matrices as in MatModel.
   div, ffa, xgcd are the operations of the coefficient field.  None is a panic.  new_unchecked (structure/quotient.rs l.14-17) asserts m <> 0. *)
From Coq Require Import List Arith NArith Bool.
From Verif Require Import RingSpec RingModel PermModel MatModel PolyModel.
Import ListNotations.
Local Open Scope nat_scope.

Section Q.
Context {R : ring_ops}.
Notation T := (T R).
Notation poly := (list T).
Notation mat := (matrix T).
Variable div : div_op R.
Variable ffa : ffa_op R.
Variable xgcd : T -> T -> T * T * T.
Variable m : poly.
(* structure.rs l.468-475, with quorem of polynomial.rs l.755-761; structure/quotient.rs l.27-29 *)
Definition q_rem (a b : poly) : option poly :=
  if p_is_zero b then Some a else do o <- p_quorem div a b; do qr <- o; Some (snd qr).
Definition q_reduce (a : poly) : option poly := q_rem a m.
(* l.13-19 *)
Definition q_generator : poly := p_var.
Definition q_degree : option nat := p_degree m.
(* structure/quotient.rs l.93-135: the ring operations *)
Definition q_equal (a b : poly) : option bool := do r <- q_rem (p_add a (p_neg b)) m; Some (p_is_zero r).
Definition q_add (a b : poly) : option poly := q_rem (p_add a b) m.
Definition q_mul (a b : poly) : option poly := q_rem (p_mul a b) m.
(* l.22-40 *)
Definition col_multiplication_matrix (a : poly) : option mat :=
  do deg <- q_degree;
  do cs <- mapM (fun i =>
      do coeffs <- q_reduce (p_mul a (p_var_pow i));
      assert! length coeffs <=? deg;                                  (* debug_assert *)
      Some (coeffs ++ repeat r0 (deg - length coeffs))) (range 0 deg);
  from_cols cs.
(* l.41-44 *)
Definition row_multiplication_matrix (a : poly) : option mat := do x <- col_multiplication_matrix a; Some (transpose x).
(* l.46-54 *)
Definition to_col_vector (a : poly) : option mat :=
  do deg <- q_degree; do a_reduced <- q_reduce a; construct deg 1 (fun r _ => Some (p_coeff a_reduced r)).
Definition to_row_vector (a : poly) : option mat := do v <- to_col_vector a; Some (transpose v).
(* l.56-67 *)
Definition from_col_vector (v : mat) : option poly :=
  assert! cols v =? 1;
  do deg <- q_degree;
  assert! rows v =? deg;
  mapM (fun i => get v i 0) (range 0 deg).
Definition from_row_vector (v : mat) : option poly := from_col_vector (transpose v).
(* l.75-84 *)
Definition q_norm (a : poly) : option T := do x <- col_multiplication_matrix a; unwrap (det div ffa xgcd x).
Definition q_trace (a : poly) : option T := do x <- col_multiplication_matrix a; unwrap (trace x).
End Q.

(* number/anf/number_field.rs l.30-41: ANFStructure is the case of the rationals; nothing in the two functions depends on that *)
Section Disc.
Context {R : ring_ops}.
Notation T := (T R).
Notation poly := (list T).
Variable div : div_op R.
Variable ffa : ffa_op R.
Variable xgcd : T -> T -> T * T * T.
Variable m : poly.
Definition trace_form_matrix (es : list poly) : option (matrix T) :=
  do n <- @q_degree R m;
  assert! n =? length es;
  construct n n (fun r c => do a <- nth_error es r; do b <- nth_error es c; q_trace div m (p_mul a b)).
Definition q_discriminant (es : list poly) : option T := do t <- trace_form_matrix es; unwrap (det div ffa xgcd t).
End Disc.
