(* Model of rings/src/polynomial/polynomial.rs l.849-895: interpolation by solving the Vandermonde system.
   option None = panic; the inner option is the Rust one. *)
From Coq Require Import List Arith NArith Bool.
From Verif Require Import RingSpec RingModel PermModel MatModel LatModel PolyModel.
Import ListNotations.
Close Scope rs_scope.
Open Scope nat_scope.
Section I.
Context {R : ring_ops}.
Notation T := (T R).
Variables (div : div_op R) (ffa : ffa_op R) (xgcd : T -> T -> T * T * T).
Definition vandermonde_row (x : T) (n r : nat) (m : matrix T) : option (matrix T) :=
  do s <- forM (range 0 n) (fun c s => let '(m, xp) := s in do m' <- put m r c xp; Some (m', rmul xp x)) (m, r1);
  Some (fst s).
Definition interpolate_by_linear_system (pts : list (T * T)) : option (option (list T)) :=
  let n := length pts in
  do m0 <- zero n n;
  do m <- forM (range 0 n) (fun r m => vandermonde_row (fst_at pts r) n r m) m0;
  do y0 <- zero n 1;
  do y <- forM (range 0 n) (fun r m => put m r 0 (snd_at pts r)) y0;
  do o <- col_solve div ffa xgcd m y;
  match o with
  | None => Some None
  | Some v => do cs <- mapM (fun i => get v i 0) (range 0 n); Some (Some cs)
  end.
End I.
