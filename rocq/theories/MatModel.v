(* Model of rings/src/linear/matrix.rs l.1-1560 (matrices, elementary operations, Hermite and Smith algorithms, solving).
   Conventions.  usize is nat; a vector is a list; `option` = None when the Rust code panics (failed assert, failed unwrap, index out
   of bounds, usize underflow).  The Result<_, MatOppErr> of the API is `res`.  debug_assert! conditions are part of the model
   (a false condition is a panic), so that "never panics" covers debug builds.
   Ownership and cloning are not modelled: a method taking &mut self returns the new value.  pprint/to_string are not modelled. *)
From Coq Require Import List Arith NArith Bool.
From Verif Require Import RingSpec RingModel PermModel.
Import ListNotations.

Close Scope rs_scope.
Open Scope nat_scope.
Definition obind {A B} (o : option A) (k : A -> option B) : option B := match o with None => None | Some a => k a end.
Notation "'do' x <- e ; k" := (obind e (fun x => k)) (at level 200, x pattern, e at level 100, k at level 200, right associativity).
(* assert!(b) / debug_assert!(b) *)
Definition oassert (b : bool) : option unit := if b then Some tt else None.
Notation "'assert!' b ; k" := (if b then k else None) (at level 200, b at level 100, k at level 200, right associativity).
(* for i in l { s = body(i, s) } *)
Fixpoint forM {S} (l : list nat) (body : nat -> S -> option S) (s : S) : option S :=
  match l with [] => Some s | i :: l' => do s' <- body i s; forM l' body s' end.
(* l.into_iter().map(f).collect() *)
Fixpoint mapM {A B} (f : A -> option B) (l : list A) : option (list B) :=
  match l with [] => Some [] | a :: l' => do b <- f a; do bs <- mapM f l'; Some (b :: bs) end.
(* the range a..b *)
Definition range (a b : nat) : list nat := seq a (b - a).

(* l.12-17 *)
Inductive mat_err := DimMissmatch | InvalidIndex | NotSquare.
Inductive res (A : Type) := Ok (a : A) | Err (e : mat_err).
Arguments Ok {A}. Arguments Err {A}.
Definition unwrap {A} (r : option (res A)) : option A := match r with Some (Ok a) => Some a | _ => None end.

(* l.19-27 *)
Record matrix (A : Type) := Mat { dim1 : nat; dim2 : nat; tr : bool; fr : bool; fc : bool; elems : list A }.
Arguments Mat {A}. Arguments dim1 {A}. Arguments dim2 {A}. Arguments tr {A}. Arguments fr {A}. Arguments fc {A}. Arguments elems {A}.

Section Views.
Context {A : Type}.
Notation matrix := (matrix A).

(* l.119-131 *)
Definition rows (m : matrix) : nat := if tr m then dim2 m else dim1 m.
Definition cols (m : matrix) : nat := if tr m then dim1 m else dim2 m.
(* l.82-95; the subtractions do not underflow when r < rows, c < cols, which the callers check *)
Definition rc_to_idx (m : matrix) (r c : nat) : nat :=
  let r' := if fr m then rows m - r - 1 else r in
  let c' := if fc m then cols m - c - 1 else c in
  if tr m then r' + c' * dim2 m else c' + r' * dim2 m.
(* l.97-106 *)
Definition at_ (m : matrix) (r c : nat) : option (res A) :=
  if rows m <=? r then Some (Err InvalidIndex)
  else if cols m <=? c then Some (Err InvalidIndex)
  else match nth_error (elems m) (rc_to_idx m r c) with Some a => Some (Ok a) | None => None end.
(* m.at(r, c).unwrap() *)
Definition get (m : matrix) (r c : nat) : option A := unwrap (at_ m r c).
(* l.108-117: `*m.at_mut(r, c)? = v` *)
Definition set_ (m : matrix) (r c : nat) (v : A) : option (res matrix) :=
  if rows m <=? r then Some (Err InvalidIndex)
  else if cols m <=? c then Some (Err InvalidIndex)
  else match vset (elems m) (rc_to_idx m r c) v with
       | Some es => Some (Ok (Mat (dim1 m) (dim2 m) (tr m) (fr m) (fc m) es)) | None => None end.
(* `*m.at_mut(r, c).unwrap() = v` *)
Definition put (m : matrix) (r c : nat) (v : A) : option matrix := unwrap (set_ m r c v).

(* l.36-49 *)
Definition full (r c : nat) (a : A) : matrix := Mat r c false false false (repeat a (r * c)).
(* l.51-66; make_entry may panic *)
Definition construct (r c : nat) (make_entry : nat -> nat -> option A) : option matrix :=
  do es <- mapM (fun idx => make_entry (idx / c) (idx mod c)) (seq 0 (r * c));
  Some (Mat r c false false false es).
(* l.68-76 *)
Definition from_rows (rs : list (list A)) : option matrix :=
  let r := length rs in
  match rs with
  | [] => None
  | r0 :: rest =>
      let c := length r0 in
      assert! forallb (fun row => Nat.eqb (length row) c) rest;
      construct r c (fun i j => do row <- nth_error rs i; nth_error row j)
  end.
(* l.176-179 *)
Definition transpose (m : matrix) : matrix := Mat (dim1 m) (dim2 m) (negb (tr m)) (fc m) (fr m) (elems m).
(* l.188-190, 199-201 *)
Definition flip_rows (m : matrix) : matrix := Mat (dim1 m) (dim2 m) (tr m) (negb (fr m)) (fc m) (elems m).
Definition flip_cols (m : matrix) : matrix := Mat (dim1 m) (dim2 m) (tr m) (fr m) (negb (fc m)) (elems m).
(* l.78-80 *)
Definition from_cols (cs : list (list A)) : option matrix := do m <- from_rows cs; Some (transpose m).
(* l.133-148 *)
Definition submatrix (m : matrix) (rs cs : list nat) : option matrix :=
  do es <- mapM (fun r => mapM (fun c => get m r c) cs) rs;
  Some (Mat (length rs) (length cs) false false false (concat es)).
(* l.150-156 *)
Definition get_row (m : matrix) (row : nat) : option matrix := submatrix m [row] (range 0 (cols m)).
Definition get_col (m : matrix) (col : nat) : option matrix := submatrix m (range 0 (rows m)) [col].
(* l.203-224.  The closure's triple search loop is a linear search for the block containing row r. *)
Fixpoint join_entry (mats : list matrix) (off : nat) (c0 : nat) (r c : nat) : option A :=
  match mats with
  | [] => None                                                  (* panic!() *)
  | m :: mats' =>
      match find (fun mr => (r =? off + mr) && existsb (Nat.eqb c) (range 0 c0)) (range 0 (rows m)) with
      | Some mr => get m mr c
      | None => join_entry mats' (off + rows m) c0 r c
      end
  end.
Definition join_rows (c0 : nat) (mats : list matrix) : option matrix :=
  assert! forallb (fun m => Nat.eqb c0 (cols m)) mats;
  construct (fold_left (fun n m => n + rows m) mats 0) c0 (join_entry mats 0 c0).
(* l.226-233 *)
Definition join_cols (r0 : nat) (mats : list matrix) : option matrix :=
  do j <- join_rows r0 (map transpose mats); Some (transpose j).
(* l.235-243 *)
Definition entries_list (m : matrix) : option (list A) :=
  do es <- mapM (fun r => mapM (fun c => get m r c) (range 0 (cols m))) (range 0 (rows m)); Some (concat es).
End Views.
(* l.158-167 *)
Definition apply_map {A B} (f : A -> B) (m : matrix A) : matrix B := Mat (dim1 m) (dim2 m) (tr m) (fr m) (fc m) (map f (elems m)).

(* ------------------------------------------------------------------ MatrixStructure over a ring *)
Section Ring.
Context {R : ring_ops}.
Notation T := (T R).
Notation mat := (matrix (RingSpec.T R)).

(* l.265-284; early return false *)
Fixpoint allM (l : list nat) (p : nat -> option bool) : option bool :=
  match l with [] => Some true | i :: l' => do b <- p i; if b then allM l' p else Some false end.
Definition equal (a b : mat) : option bool :=
  if negb (rows a =? rows b) then Some false
  else if negb (cols a =? cols b) then Some false
  else allM (range 0 (cols a)) (fun c => allM (range 0 (rows a)) (fun r => do x <- get a r c; do y <- get b r c; Some (req x y))).
(* l.343-371 *)
Definition zero (r c : nat) : option mat := construct r c (fun _ _ => Some r0).
Definition ident (n : nat) : option mat := construct n n (fun r c => Some (if r =? c then r1 else r0)).
Definition diag (d : list T) : option mat :=
  construct (length d) (length d) (fun r c => if r =? c then nth_error d r else Some r0).
(* l.373-391; fuel bounds the recursion depth *)
Fixpoint join_diag (fuel : nat) (mats : list mat) : option mat :=
  match fuel with
  | O => None
  | S fuel' =>
      match mats with
      | [] => construct 0 0 (fun _ _ => None)
      | [m] => Some m
      | _ => let i := Nat.div2 (length mats) in
             do first <- join_diag fuel' (firstn i mats);
             do last <- join_diag fuel' (skipn i mats);
             construct (rows first + rows last) (cols first + cols last) (fun r c =>
               if (r <? rows first) && (c <? cols first) then get first r c
               else if (rows first <=? r) && (cols first <=? c) then get last (r - rows first) (c - cols first)
               else Some r0)
      end
  end.
(* l.393-408 *)
Definition dot (a b : mat) : option T :=
  assert! Nat.eqb (rows a) (rows b); assert! Nat.eqb (cols a) (cols b);
  forM (range 0 (rows a)) (fun r tot => forM (range 0 (cols a)) (fun c tot =>
    do x <- get a r c; do y <- get b r c; Some (radd tot (rmul x y))) tot) r0.
(* l.410-423; Ok carries the updated matrix *)
Definition add_mut (a b : mat) : option (res mat) :=
  if negb (rows a =? rows b) || negb (cols a =? cols b) then Some (Err DimMissmatch)
  else let nr := rows a in let nc := cols a in
       do a' <- forM (range 0 nc) (fun c a => forM (range 0 nr) (fun r a =>
            do x <- get a r c; do y <- get b r c; put a r c (radd x y)) a) a;
       Some (Ok a').
(* l.425-436 *)
Definition add (a b : mat) : option (res mat) := add_mut a b.
(* l.438-450; a.cols() is re-evaluated by Rust at every row, but the writes do not change it *)
Definition neg (a : mat) : option mat :=
  let nr := rows a in let nc := cols a in
  forM (range 0 nr) (fun r a => forM (range 0 nc) (fun c a => do x <- get a r c; put a r c (rneg x)) a) a.
(* l.452-475 *)
Definition mul (a b : mat) : option (res mat) :=
  let mids := cols a in
  if negb (mids =? rows b) then Some (Err DimMissmatch)
  else
    do s <- zero (rows a) (cols b);
    do s' <- forM (range 0 (rows a)) (fun r s => forM (range 0 (cols b)) (fun c s => forM (range 0 mids) (fun m s =>
               do x <- get a r m; do y <- get b m c; do t <- get s r c; put s r c (radd t (rmul x y))) s) s) s;
    Some (Ok s').
(* l.477-488 *)
Definition mul_scalar (a : mat) (scalar : T) : option mat :=
  let nr := rows a in let nc := cols a in
  forM (range 0 nr) (fun r a => forM (range 0 nc) (fun c a => do x <- get a r c; put a r c (rmul x scalar)) a) a.

(* groups/src/permutation.rs l.148-150 with itertools' (0..n).permutations(n), trusted to list every ordering of 0..n once, in
   lexicographic order *)
Fixpoint selects {X} (l : list X) : list (X * list X) :=
  match l with [] => [] | x :: l' => (x, l') :: map (fun p => (fst p, x :: snd p)) (selects l') end.
Fixpoint orderings {X} (n : nat) (l : list X) : list (list X) :=
  match n with O => [[]] | S n' => flat_map (fun p => map (cons (fst p)) (orderings n' (snd p))) (selects l) end.
Definition all_permutations (n : nat) : list (list nat) := map new_unchecked (orderings n (seq 0 n)).
(* l.490-512 *)
Definition det_naive (a : mat) : option (res T) :=
  let n := dim1 a in
  if negb (n =? dim2 a) then Some (Err NotSquare)
  else
    do d <- fold_left (fun acc perm =>
              do det <- acc;
              do prod <- forM (range 0 n) (fun k prod => do x <- get a k (call perm k); Some (rmul prod x)) r1;
              Some (radd det (match sign perm with Identity => prod | Flip => rneg prod end)))
            (all_permutations n) (Some r0);
    Some (Ok d).
(* l.514-521 *)
Definition trace (a : mat) : option (res T) :=
  if negb (dim1 a =? dim2 a) then Some (Err NotSquare)
  else do ds <- mapM (fun i => get a i i) (range 0 (dim1 a)); Some (Ok (sum ds)).
(* l.523-551 *)
Fixpoint mat_squares (extra : nat) (last : mat) : option (list mat) :=
  match extra with
  | O => Some [last]
  | S e => do sq <- unwrap (mul last last); do rest <- mat_squares e sq; Some (last :: rest)
  end.
Fixpoint mat_pow_loop (bs : list bool) (pows : list mat) (ans : mat) : option mat :=
  match bs, pows with
  | [], _ => Some ans
  | true :: bs', p :: ps => do ans' <- unwrap (mul ans p); mat_pow_loop bs' ps ans'
  | false :: bs', _ :: ps => mat_pow_loop bs' ps ans
  | _ :: _, [] => None
  end.
Definition mat_nat_pow (a : mat) (k : N) : option mat :=
  let n := rows a in
  assert! Nat.eqb n (cols a);
  if N.eqb k 0 then ident n
  else if N.eqb k 1 then Some a
  else let bs := bits k in
       do pows <- mat_squares (length bs - 1) a;
       do i <- ident n;
       mat_pow_loop bs pows i.

(* ---------------------------------------------------------------- elementary operations, l.553-722 *)
(* l.553-581 *)
Inductive opp_type :=
| Swap (i j : nat)
| UnitMul (row : nat) (unit : T)
| AddRowMul (i j : nat) (x : T)
| TwoInv (i j : nat) (a b c d : T).
(* l.583-587: (transpose, opp); transpose = true is a column operation *)
Definition opp := (bool * opp_type)%type.
Definition row_opp (o : opp_type) : opp := (false, o).
Definition col_opp (o : opp_type) : opp := (true, o).

Section Bezout.
Variable div : div_op R.
Variable ffa : ffa_op R.
Variable xgcd : T -> T -> T * T * T.
Definition ok_of {A} (d : divres A) : option A := match d with DivOk a => Some a | _ => None end.

(* l.590-627 *)
Definition opp_check (o : opp) : option bool :=
  match snd o with
  | Swap i j => Some (negb (i =? j))
  | AddRowMul i j _ => Some (negb (i =? j))
  | UnitMul _ u => Some (is_unit div u)
  | TwoInv i j a b c d =>
      if i =? j then Some false
      else do x <- unwrap (det_naive (Mat 2 2 false false false [a; b; c; d])); Some (is_unit div x)
  end.
(* l.645-665 *)
Definition opp_det (o : opp) : T :=
  match snd o with
  | Swap _ _ => rneg r1
  | UnitMul _ u => u
  | AddRowMul _ _ _ => r1
  | TwoInv _ _ a b c d => radd (rmul a d) (rneg (rmul b c))
  end.
(* l.667-721 *)
Definition opp_body (o : opp_type) (m : mat) : option mat :=
  match o with
  | Swap i j => forM (range 0 (cols m)) (fun col m =>
      do tmp <- get m i col; do y <- get m j col; do m1 <- put m i col y; put m1 j col tmp) m
  | AddRowMul i j x => forM (range 0 (cols m)) (fun col m =>
      do y <- get m j col; do z <- get m i col; put m i col (radd z (rmul y x))) m
  | UnitMul row u => forM (range 0 (cols m)) (fun col m => do y <- get m row col; put m row col (rmul y u)) m
  | TwoInv i j a b c d => forM (range 0 (cols m)) (fun col m =>
      do mi <- get m i col; do mj <- get m j col;
      do m1 <- put m i col (radd (rmul a mi) (rmul b mj));
      put m1 j col (radd (rmul c mi) (rmul d mj))) m
  end.
Definition opp_apply (o : opp) (m : mat) : option mat :=
  do ok <- opp_check o;
  assert! ok;
  if fst o then do m' <- opp_body (snd o) (transpose m); Some (transpose m') else opp_body (snd o) m.

(* ---------------------------------------------------------------- row Hermite, l.893-990 *)
(* l.914-926: is there a nonzero entry in column pc, rows pr.. ? *)
Definition col_nonzero (m : mat) (pr pc : nat) : option bool :=
  do b <- allM (range pr (rows m)) (fun r => do x <- get m r pc; Some (req x r0)); Some (negb b).
(* the 'next_pivot_loop; fuel = cols - pc is exact; None = panic, Some None = break 'pivot_loop *)
Fixpoint next_pivot (fuel : nat) (m : mat) (pr pc : nat) : option (option nat) :=
  if pc =? cols m then Some None
  else do b <- col_nonzero m pr pc;
       if b then Some (Some pc)
       else match fuel with O => None | S f => next_pivot f m pr (pc + 1) end.
(* l.935-963: one elimination step.  State = (m, u, u_det) *)
Definition hermite_step (pr pc : nat) (r : nat) (s : mat * mat * T) : option (mat * mat * T) :=
  let '(m, u, u_det) := s in
  do a <- get m pr pc;
  do b <- get m r pc;
  if negb (req a r0) || negb (req b r0) then
    let '(d, x, y) := xgcd a b in
    assert! req (radd (rmul x a) (rmul y b)) d;
    do bd <- ok_of (div b d);
    do ad <- ok_of (div a d);
    let o := row_opp (TwoInv pr r x y (rneg bd) ad) in
    do m' <- opp_apply o m;
    do u' <- opp_apply o u;
    Some (m', u', rmul u_det (opp_det o))
  else Some s.
(* l.930-977 *)
Definition hermite_pivot (pr pc : nat) (s : mat * mat * T) : option (mat * mat * T) :=
  let '(m, u, u_det) := s in
  if pr + 1 <? rows m then
    forM (range (pr + 1) (rows m)) (hermite_step pr pc) s
  else
    do a <- get m pr pc;
    let '(unit, _) := ffa a in
    do iu <- ok_of (inv div unit);
    let o := row_opp (UnitMul pr iu) in
    do m' <- opp_apply o m;
    do u' <- opp_apply o u;
    Some (m', u', rmul u_det (opp_det o)).
(* l.909-984: fuel = rows - pr is exact *)
Fixpoint hermite_loop (fuel : nat) (pr pc : nat) (s : mat * mat * T) (pivs : list nat) : option (mat * mat * T * list nat) :=
  let '(m, u, u_det) := s in
  if pr <? rows m then
    match fuel with
    | O => None
    | S fuel' =>
        do np <- next_pivot (cols m - pc) m pr pc;
        match np with
        | None => Some (s, pivs)
        | Some pc' =>
            do s' <- hermite_pivot pr pc' s;
            do clear <- allM (range (pr + 1) (rows m)) (fun r => do x <- get (fst (fst s')) r pc'; Some (req x r0));
            assert! clear;                                                    (* l.979-981 *)
            hermite_loop fuel' (pr + 1) pc' s' (pivs ++ [pc'])
        end
    end
  else Some (s, pivs).
Definition row_hermite_algorithm (m : mat) : option (mat * mat * T * list nat) :=
  do u <- ident (rows m);
  do res <- hermite_loop (rows m) 0 0 (m, u, r1) [];
  let '(h, u', u_det, pivs) := res in
  if rows h <=? 4 then                                                        (* l.986-988 *)
    do d <- unwrap (det_naive u');
    assert! req d u_det; Some (h, u', u_det, pivs)
  else Some (h, u', u_det, pivs).
(* l.992-998 *)
Definition col_hermite_algorithm (a : mat) : option (mat * mat * T * list nat) :=
  do res <- row_hermite_algorithm (transpose a);
  let '(rh, ru, u_det, pivs) := res in Some (transpose rh, transpose ru, u_det, pivs).
(* l.1000-1010 *)
Definition det_hermite (a : mat) : option T :=
  assert! Nat.eqb (rows a) (cols a);
  do res <- row_hermite_algorithm a;
  let '(h, _, u_det, _) := res in
  do h_det <- forM (range 0 (rows a)) (fun i acc => do x <- get h i i; Some (rmul acc x)) r1;
  ok_of (div h_det u_det).
(* l.1012-1022 *)
Definition det (a : mat) : option (res T) :=
  if negb (rows a =? cols a) then Some (Err NotSquare)
  else if rows a <=? 3 then do d <- unwrap (det_naive a); Some (Ok d)
  else do d <- det_hermite a; Some (Ok d).
(* l.1024-1027 *)
Definition rank (a : mat) : option nat :=
  do res <- row_hermite_algorithm a; let '(_, _, _, pivs) := res in Some (length pivs).

(* ---------------------------------------------------------------- Smith, l.1029-1293 *)
Definition find_nonzero_c (m : mat) (r : nat) (cs : list nat) : option (option nat) :=
  fold_right (fun c k => do x <- get m r c; if negb (req x r0) then Some (Some c) else k) (Some None) cs.
Fixpoint find_nonzero_rc (m : mat) (n : nat) (rs : list nat) : option (option (nat * nat)) :=
  match rs with
  | [] => Some None
  | r :: rs' => do f <- find_nonzero_c m r (range n (cols m));
                match f with Some c => Some (Some (r, c)) | None => find_nonzero_rc m n rs' end
  end.
(* state (u, m, v) *)
Notation st := (mat * mat * mat)%type.
Definition on_cols (o : opp_type) (s : st) : option st :=
  let '(u, m, v) := s in do m' <- opp_apply (col_opp o) m; do v' <- opp_apply (col_opp o) v; Some (u, m', v').
Definition on_rows (o : opp_type) (s : st) : option st :=
  let '(u, m, v) := s in do m' <- opp_apply (row_opp o) m; do u' <- opp_apply (row_opp o) u; Some (u', m', v).
(* l.1044-1085; Some None = everything remaining is zero *)
Definition smith_search (n : nat) (s : st) : option (option st) :=
  let '(u, m, v) := s in
  do x <- get m n n;
  if req x r0 then
    do f <- find_nonzero_c m n (range (n + 1) (cols m));
    match f with
    | Some c => do s' <- on_cols (Swap n c) s; Some (Some s')
    | None =>
        do f2 <- find_nonzero_rc m n (range (n + 1) (rows m));
        match f2 with
        | None => Some None
        | Some (r, c) =>
            do s1 <- on_cols (Swap n c) s;
            (* l.1074-1079: commented "swap row n and row r", but it is new_col_opp, applied to m and to u *)
            let '(u1, m1, v1) := s1 in
            do m2 <- opp_apply (col_opp (Swap n r)) m1;
            do u2 <- opp_apply (col_opp (Swap n r)) u1;
            Some (Some (u2, m2, v1))
        end
    end
  else Some (Some s).
(* l.1087-1097 *)
Definition smith_unit (n : nat) (s : st) : option st :=
  let '(u, m, v) := s in
  do x <- get m n n;
  let '(unit, _) := ffa x in
  do iu <- ok_of (inv div unit);
  on_rows (UnitMul n iu) s.
(* the TwoInv operation turning (a, b) into (gcd, 0) *)
Definition gcd_opp (i j : nat) (a b : T) : option opp_type :=
  let '(d, x, y) := xgcd a b in
  assert! req (radd (rmul x a) (rmul y b)) d;
  do bd <- ok_of (div b d); do ad <- ok_of (div a d);
  Some (TwoInv i j x y (rneg bd) ad).
(* l.1104-1151 / 1158-1204, one pass over the first row (by columns) / first column (by rows).  State (s, all_divisible) *)
Definition smith_pass_c (n : nat) (c : nat) (sa : st * bool) : option (st * bool) :=
  let '(s, ad) := sa in let '(u, m, v) := s in
  do a <- get m n n; do b <- get m n c;
  match div b a with
  | DivOk q => do s' <- on_cols (AddRowMul c n (rneg q)) s; Some (s', ad)
  | NotDivisible => do o <- gcd_opp n c a b; do s' <- on_cols o s; Some (s', false)
  | DivideByZero => do s' <- on_cols (Swap n c) s; Some (s', ad)
  end.
Definition smith_pass_r (n : nat) (r : nat) (sa : st * bool) : option (st * bool) :=
  let '(s, ad) := sa in let '(u, m, v) := s in
  do a <- get m n n; do b <- get m r n;
  match div b a with
  | DivOk q => do s' <- on_rows (AddRowMul r n (rneg q)) s; Some (s', ad)
  | NotDivisible => do o <- gcd_opp n r a b; do s' <- on_rows o s; Some (s', false)
  | DivideByZero => do s' <- on_rows (Swap n r) s; Some (s', ad)
  end.
(* l.1101-1208; None = panic or out of fuel *)
Fixpoint smith_zero_loop (fuel : nat) (n : nat) (first : bool) (s : st) : option st :=
  match fuel with
  | O => None
  | S fuel' =>
      let '(_, m, _) := s in
      do sc <- forM (range (n + 1) (cols m)) (smith_pass_c n) (s, true);
      if snd sc && negb first then Some (fst sc)
      else
        do sr <- forM (range (n + 1) (rows m)) (smith_pass_r n) (fst sc, true);
        if snd sr then Some (fst sr) else smith_zero_loop fuel' n false (fst sr)
  end.
(* l.1213-1256 *)
Definition smith_gcd_c (n c : nat) (s : st) : option st :=
  let '(u, m, v) := s in
  do a <- get m n n; do b <- get m n c;
  if negb (is_zero a) || negb (is_zero b) then do o <- gcd_opp n c a b; on_cols o s else Some s.
Definition smith_add_row (n r : nat) (s : st) : option st :=
  do s1 <- on_rows (AddRowMul n r r1) s;
  let '(_, m, _) := s1 in
  forM (range (n + 1) (cols m)) (smith_gcd_c n) s1.
(* l.1259-1273 *)
Definition smith_fix (n r : nat) (s : st) : option st :=
  let '(u, m, v) := s in
  do a <- get m n n; do b <- get m r n;
  do q <- ok_of (div b a);
  on_rows (AddRowMul r n (rneg q)) s.
(* l.1039-1283; ifuel bounds the inner loop *)
Fixpoint smith_loop (ifuel fuel : nat) (n : nat) (s : st) : option (st * nat) :=
  let '(u, m, v) := s in
  if (n <? rows m) && (n <? cols m) then
    match fuel with
    | O => None
    | S fuel' =>
        do f <- smith_search n s;
        match f with
        | None => Some (s, n)
        | Some s1 =>
            do s2 <- smith_unit n s1;
            do s3 <- smith_zero_loop ifuel n true s2;
            let '(_, m3, _) := s3 in
            do x <- get m3 n n;
            assert! negb (req x r0);
            do s4 <- forM (range (n + 1) (rows m3)) (smith_add_row n) s3;
            do s5 <- forM (range (n + 1) (rows m3)) (smith_fix n) s4;
            let '(_, m5, _) := s5 in
            do y <- get m5 n n;
            if req y r0 then Some (s5, n) else smith_loop ifuel fuel' (n + 1) s5
        end
    end
  else Some (s, n).
Definition smith_algorithm (ifuel : nat) (m : mat) : option (mat * mat * mat * nat) :=
  do u <- ident (rows m);
  do v <- ident (cols m);
  do r <- smith_loop ifuel (rows m) 0 (u, m, v);
  Some (fst (fst (fst r)), snd (fst (fst r)), snd (fst r), snd r).

Section Euclid.
Variable quorem : T -> T -> option (T * T).
(* ---------------------------------------------------------------- l.1303-1359 *)
Definition reduce_step (pr pc : nat) (r : nat) (s : mat * mat) : option (mat * mat) :=
  let '(h, u) := s in
  do a <- get h r pc; do b <- get h pr pc;
  do q <- quo quorem a b;
  let o := row_opp (AddRowMul r pr (rneg q)) in
  do h' <- opp_apply o h; do u' <- opp_apply o u; Some (h', u').
Fixpoint reduce_loop (pr : nat) (pivs : list nat) (s : mat * mat) : option (mat * mat) :=
  match pivs with
  | [] => Some s
  | pc :: rest => do s' <- forM (range 0 pr) (reduce_step pr pc) s; reduce_loop (S pr) rest s'
  end.
Definition row_reduced_hermite_algorithm (m : mat) : option (mat * mat * list nat) :=
  do res <- row_hermite_algorithm m;
  let '(h, u, _, pivs) := res in
  do hu <- reduce_loop 0 pivs (h, u);
  Some (fst hu, snd hu, pivs).
Definition col_reduced_hermite_algorithm (m : mat) : option (mat * mat * list nat) :=
  do res <- row_reduced_hermite_algorithm (transpose m);
  let '(rh, ru, pivs) := res in Some (transpose rh, transpose ru, pivs).
(* outer None = panic *)
Definition mat_inv (a : mat) : option (option mat) :=
  assert! Nat.eqb (rows a) (cols a);
  do res <- row_reduced_hermite_algorithm a;
  let '(h, u, _) := res in
  do i <- ident (rows a);
  do e <- equal h i;
  Some (if e then Some u else None).
End Euclid.
End Bezout.

Section Gcd.
Variable div : div_op R.
Variable gcd : T -> T -> T.
(* l.1362-1377; outer None = panic *)
Definition factor_primitive (m : mat) : option (option (T * mat)) :=
  do es <- entries_list m;
  let g := gcd_list gcd es in
  if is_zero g then Some None
  else let nr := rows m in let nc := cols m in
       do m' <- forM (range 0 nr) (fun r m => forM (range 0 nc) (fun c m =>
                  do x <- get m r c; do q <- ok_of (div x g); put m r c q) m) m;
       Some (Some (g, m')).
End Gcd.

(* ---------------------------------------------------------------- l.1477-1558 Gram-Schmidt *)
Section Gram.
Variable div : div_op R.
Variable conj : T -> T.
(* l.1483-1491 *)
Definition inner_product (a b : mat) : option T := dot a (apply_map conj b).
Definition gs_step (i : nat) (j : nat) (s : mat * mat) : option (mat * mat) :=
  let '(lt, m) := s in
  do ri <- get_row m i; do rj <- get_row m j;
  do p <- inner_product ri rj; do q <- inner_product rj rj;
  do lambda <- ok_of (div p q);
  let o := row_opp (AddRowMul i j (rneg lambda)) in
  do lt' <- opp_apply div o lt; do m' <- opp_apply div o m; Some (lt', m').
(* l.1496-1541; returns (L, Q) *)
Definition gram_schmidt_rows (m : mat) : option (mat * mat) :=
  do lt <- ident (rows m);
  do s <- forM (range 0 (rows m)) (fun i s => forM (range 0 i) (gs_step i) s) (lt, m);
  let '(lt', m') := s in
  do ok <- allM (range 0 (rows m)) (fun i => allM (range (i + 1) (rows m)) (fun j =>
              do ri <- get_row m' i; do rj <- get_row m' j; do p <- inner_product ri rj; Some (is_zero p)));
  assert! ok;
  do pr <- unwrap (mul lt' m);
  do e <- equal m' pr;
  assert! e;
  Some (lt', m').
(* l.1544-1550 *)
Definition gram_schmidt_cols (m : mat) : option (mat * mat) :=
  do s <- gram_schmidt_rows (transpose m); Some (transpose (snd s), transpose (fst s)).
End Gram.
End Ring.
