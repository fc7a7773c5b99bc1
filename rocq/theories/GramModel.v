(* The orthonormal variants of Gram-Schmidt, rings/src/linear/matrix.rs l.1551-1613 (the orthogonal ones are in MatModel).
   root x stands for nth_root(x, 2), None for its Err (which the code unwraps).  A panic is None. *)
From Coq Require Import List Arith NArith.
From Verif Require Import RingSpec RingModel PermModel MatModel.
Import ListNotations.
Local Open Scope nat_scope.

Section Gram.
Context {R : ring_ops}.
Notation T := (T R).
Notation mat := (matrix T).
Variable div : div_op R.
Variable conj : T -> T.
Variable root : T -> option T.
(* l.1569-1584, one row *)
Definition lq_step (r : nat) (s : mat * mat) : option (mat * mat) :=
  let '(lt, m) := s in
  do row <- get_row m r;
  do lensq <- inner_product conj row row;
  do x <- root lensq;
  do u <- ok_of (div r1 x);
  let o := row_opp (UnitMul r u) in
  do lt' <- opp_apply div o lt; do m' <- opp_apply div o m; Some (lt', m').
(* l.1564-1594 *)
Definition lq_decomposition_algorithm (m : mat) : option (mat * mat) :=
  do s <- gram_schmidt_rows div conj m;
  do s' <- forM (range 0 (rows (snd s))) lq_step s;
  do i <- ident (rows (snd s'));
  do pr <- unwrap (mul (snd s') (apply_map conj (transpose (snd s'))));
  do e <- equal i pr;
  assert! e;
  Some s'.
(* l.1596-1603 *)
Definition qr_decomposition_algorithm (m : mat) : option (mat * mat) :=
  do s <- lq_decomposition_algorithm (transpose m); Some (transpose (snd s), transpose (fst s)).
(* l.1551-1557, l.1606-1612 *)
Definition gram_schmidt_row_orthogonalization (m : mat) : option mat := do s <- gram_schmidt_rows div conj m; Some (snd s).
Definition gram_schmidt_col_orthogonalization (m : mat) : option mat := do s <- gram_schmidt_cols div conj m; Some (fst s).
Definition gram_schmidt_row_orthonormalization (m : mat) : option mat := do s <- lq_decomposition_algorithm m; Some (snd s).
Definition gram_schmidt_col_orthonormalization (m : mat) : option mat := do s <- qr_decomposition_algorithm m; Some (fst s).
End Gram.
