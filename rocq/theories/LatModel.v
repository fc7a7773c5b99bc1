(* Model of rings/src/linear/subspace.rs l.1-1000 (linear and affine lattices of matrices) and of the parts of
   rings/src/linear/matrix.rs l.725-891 (spans, kernels, solving) that use them.
   Conventions as in MatModel: None = panic; debug assertions are part of the model.  Borrowed and owned variants of one method
   are one definition.  pprint and the MetaType wrappers (l.470-640, 1000-1130), which only forward, are not modelled. *)
From Coq Require Import List Arith NArith Bool.
From Verif Require Import RingSpec RingModel PermModel MatModel.
Import ListNotations.
Close Scope rs_scope.
Open Scope nat_scope.

(* subspace.rs l.81-90 *)
Record linlat (A : Type) := Lat { meta : matrix A; lrows : nat; lcols : nat }.
Arguments Lat {A}. Arguments meta {A}. Arguments lrows {A}. Arguments lcols {A}.
(* l.651-665 *)
Record afflat (A : Type) := Aff { arows : nat; acols : nat; aelems : option (matrix A * linlat A) }.
Arguments Aff {A}. Arguments arows {A}. Arguments acols {A}. Arguments aelems {A}.

Section Lat.
Context {R : ring_ops}.
Notation T := (T R).
Notation mat := (matrix (RingSpec.T R)).
Notation lat := (linlat (RingSpec.T R)).
Notation aff := (afflat (RingSpec.T R)).
Variable div : div_op R.
Variable ffa : ffa_op R.
Variable xgcd : T -> T -> T * T * T.
Notation hermite := (row_hermite_algorithm div ffa xgcd).
Notation hermite_c := (col_hermite_algorithm div ffa xgcd).
Notation rank := (MatModel.rank div ffa xgcd).

(* l.103-108 *)
Definition m_rc_to_idx (rows cols r c : nat) : option nat := if (rows <=? r) || (cols <=? c) then None else Some (c + r * cols).
(* l.111-116 *)
Definition m_idx_to_rc (rows cols idx : nat) : option (nat * nat) := if rows * cols <=? idx then None else Some (idx / cols, idx mod cols).
(* l.118-131 *)
Definition mats_to_rows (r c : nat) (mats : list mat) : option mat :=
  assert! forallb (fun m => Nat.eqb (rows m) r && Nat.eqb (cols m) c) mats;
  construct (length mats) (r * c) (fun i idx => do rc <- m_idx_to_rc r c idx; do m <- nth_error mats i; get m (fst rc) (snd rc)).
(* l.149-159 *)
Definition lat_check (l : lat) : option bool :=
  if negb (lrows l * lcols l =? cols (meta l)) then Some false
  else do k <- rank (meta l); Some (k =? rows (meta l)).
(* l.161-179 *)
Definition from_span (r c : nat) (mats : list mat) : option lat :=
  do s <- mats_to_rows r c mats;
  do res <- hermite s;
  let '(h, _, _, pivs) := res in
  do m <- submatrix h (range 0 (length pivs)) (range 0 (r * c));
  let l := Lat m r c in
  do ok <- lat_check l; assert! ok; Some l.
(* l.196-211 *)
Definition from_basis (r c : nat) (mats : list mat) : option lat :=
  do m <- mats_to_rows r c mats;
  let l := Lat m r c in
  do ok <- lat_check l; assert! ok; Some l.
(* l.217-219 *)
Definition lrank (l : lat) : nat := rows (meta l).
(* l.229-232 *)
Definition basis_row (l : lat) (bn : nat) : option mat := submatrix (meta l) [bn] (range 0 (cols (meta l))).
(* l.234-244 *)
Definition basis_matrix (l : lat) (r : nat) : option mat :=
  if lrank l <=? r then None
  else construct (lrows l) (lcols l) (fun mr mc => do idx <- m_rc_to_idx (lrows l) (lcols l) mr mc; get (meta l) r idx).
(* l.246-250 *)
Definition basis_matrices (l : lat) : option (list mat) := mapM (basis_matrix l) (range 0 (lrank l)).
(* l.252-262 *)
Definition basis_matrix_element (l : lat) (bn r c : nat) : option T := do idx <- m_rc_to_idx (lrows l) (lcols l) r c; get (meta l) bn idx.
(* l.181-194; no check *)
Definition lat_transpose (l : lat) : option lat :=
  do bs <- basis_matrices l;
  do m <- mats_to_rows (lcols l) (lrows l) (map transpose bs);
  Some (Lat m (lcols l) (lrows l)).
(* l.213-215 *)
Definition lat_zero (r c : nat) : option lat := from_basis r c [].
(* l.221-227 *)
Definition take_nonzero_point (l : lat) : option (option mat) :=
  if lrank l =? 0 then Some None else do b <- basis_matrix l 0; Some (Some b).

(* matrix.rs l.725-743 *)
Definition row_span (a : mat) : option lat :=
  do ms <- mapM (fun r => submatrix a [r] (range 0 (cols a))) (range 0 (rows a)); from_span 1 (cols a) ms.
Definition col_span (a : mat) : option lat :=
  do ms <- mapM (fun c => submatrix a (range 0 (rows a)) [c]) (range 0 (cols a)); from_span (rows a) 1 ms.
(* l.785-807 *)
Definition row_kernel (a : mat) : option lat :=
  do res <- hermite a;
  let '(_, u, _, pivs) := res in
  do ms <- mapM (fun r => submatrix u [r] (range 0 (cols u))) (range (length pivs) (rows u)); from_basis 1 (cols u) ms.
Definition col_kernel (a : mat) : option lat :=
  do res <- hermite_c a;
  let '(_, u, _, pivs) := res in
  do ms <- mapM (fun c => submatrix u (range 0 (rows u)) [c]) (range (length pivs) (cols u)); from_basis (rows u) 1 ms.
(* l.820-867; outer None = panic *)
Definition col_solve (m y : mat) : option (option mat) :=
  assert! Nat.eqb (rows y) (rows m);
  assert! Nat.eqb (cols y) 1;
  do ext <- join_cols (rows m) [y; m];
  do ker <- col_kernel ext;
  do fc <- mapM (fun bn => basis_matrix_element ker bn 0 0) (range 0 (lrank ker));
  do gt <- xgcd_list div ffa xgcd (S (length fc)) fc;
  let '(g, taps) := gt in
  assert! implb (is_unit div g) (req g r1);
  if req g r1 then
    do z <- zero (cols m + 1) 1;
    do ans <- forM (range 0 (lrank ker)) (fun bn acc =>
                do b <- basis_matrix ker bn; do t <- nth_error taps bn; do s <- mul_scalar b t; unwrap (add_mut acc s)) z;
    do x0 <- get ans 0 0;
    assert! req x0 r1;
    do sub <- submatrix ans (range 1 (rows ans)) [0];
    do x <- neg sub;
    do mx <- unwrap (mul m x);
    do e <- equal mx y;
    assert! e;
    Some (Some x)
  else Some None.
(* l.809-818 *)
Definition row_solve (m y : mat) : option (option mat) :=
  do o <- col_solve (transpose m) (transpose y); Some (option_map transpose o).

(* subspace.rs l.264-273 *)
Definition contains_row (l : lat) (row : mat) : option bool := do o <- row_solve (meta l) row; Some (match o with Some _ => true | None => false end).
(* l.275-281 *)
Definition contains_point (l : lat) (m : mat) : option bool := do row <- mats_to_rows (lrows l) (lcols l) [m]; contains_row l row.
(* l.284-296 *)
Definition contains_sublattice (l sub : lat) : option bool :=
  assert! Nat.eqb (cols (meta l)) (cols (meta sub));
  allM (range 0 (lrank sub)) (fun bn => do row <- basis_row sub bn; contains_row l row).
(* l.298-300; && short-circuits *)
Definition lat_equal (a b : lat) : option bool := do x <- contains_sublattice a b; if x then contains_sublattice b a else Some false.
(* l.303-336 *)
Definition extension_basis (a b : lat) : option (list mat) :=
  let r := lrows a in
  let c := lcols b in
  assert! Nat.eqb r (lrows b);
  do sub <- contains_sublattice b a;
  assert! sub;
  do mm <- join_rows (r * c) [meta a; meta b];
  do res <- hermite_c mm;
  let '(_, _, _, pivs) := res in
  do ext <- mapM (fun i => construct r c (fun mr mc => do idx <- m_rc_to_idx r c mr mc; get mm i idx)) (filter (fun i => lrank a <=? i) pivs);
  assert! Nat.eqb (lrank a + length ext) (lrank b);
  Some ext.
(* l.9-22 *)
Definition metamatrix_row_sum (c : nat) (ms : list mat) : option mat :=
  assert! forallb (fun m => Nat.eqb (cols m) c) ms;
  do j <- join_rows c ms;
  do res <- hermite j;
  let '(h, _, _, pivs) := res in
  submatrix h (range 0 (length pivs)) (range 0 c).
(* l.25-78 *)
Definition metamatrix_row_intersection (c : nat) (m1 m2 : mat) : option mat :=
  assert! Nat.eqb (cols m1) c; assert! Nat.eqb (cols m2) c;
  do k1 <- rank m1; assert! Nat.eqb k1 (rows m1);
  do k2 <- rank m2; assert! Nat.eqb k2 (rows m2);
  let '(m1, m2) := if rows m2 <? rows m1 then (m2, m1) else (m1, m2) in
  do n2 <- neg m2;
  do j <- join_rows c [m1; n2];
  do ker <- row_kernel j;
  do rs <- mapM (fun i => do b <- basis_matrix ker i; do sub <- submatrix b [0] (range 0 (rows m1)); unwrap (mul sub m1)) (range 0 (lrank ker));
  join_rows c rs.
(* l.338-359 *)
Definition lat_sum (r c : nat) (ls : list lat) : option lat :=
  assert! forallb (fun l => Nat.eqb (lrows l) r && Nat.eqb (lcols l) c) ls;
  do m <- metamatrix_row_sum (r * c) (map meta ls); Some (Lat m r c).
(* l.393-417 *)
Definition lat_intersect_pair (r c : nat) (l1 l2 : lat) : option lat :=
  assert! (Nat.eqb (lrows l1) r && Nat.eqb (lcols l1) c) && (Nat.eqb (lrows l2) r && Nat.eqb (lcols l2) c);
  do m <- metamatrix_row_intersection (r * c) (meta l1) (meta l2);
  let l := Lat m r c in
  do ok <- lat_check l; assert! ok; Some l.
(* l.371-391 *)
Definition lat_intersect (r c : nat) (ls : list lat) : option lat :=
  match ls with
  | [] => do i <- ident (r * c); Some (Lat i r c)
  | [l] => Some l
  | l0 :: l1 :: rest => fold_left (fun acc l => do a <- acc; lat_intersect_pair r c a l) rest (lat_intersect_pair r c l0 l1)
  end.
(* l.419-476.  State: the extended lattice and the matrices added so far *)
Definition unit_mat (r c i j : nat) : option mat := construct r c (fun r' c' => Some (if (i =? r') && (j =? c') then r1 else r0)).
Definition hyper_step (r c : nat) (i j : nat) (s : lat * list mat) : option (lat * list mat) :=
  let '(el, eb) := s in
  do v <- unit_mat r c i j;
  do lv <- from_basis r c [v];
  do nl <- lat_sum r c [el; lv];
  assert! (lrank nl =? lrank el) || (lrank nl =? lrank el + 1);
  Some (if lrank nl =? lrank el + 1 then (nl, eb ++ [v]) else (el, eb)).
Definition remove_nth {A} (i : nat) (l : list A) : list A := firstn i l ++ skipn (S i) l.
Definition as_hyperplane_intersection (l : lat) : option (list lat) :=
  let r := lrows l in let c := lcols l in
  do s <- forM (range 0 r) (fun i s => forM (range 0 c) (fun j s => hyper_step r c i j s) s) (l, []);
  let '(el, eb) := s in
  assert! Nat.eqb (lrank el) (r * c);
  mapM (fun i => do b <- from_basis r c (remove_nth i eb); lat_sum r c [l; b]) (range 0 (length eb)).

(* ---------------------------------------------------------------- affine lattices *)
(* l.684-713; the result of check_invariants being Ok *)
Definition aff_check (l : aff) : option bool :=
  match aelems l with
  | None => Some true
  | Some (offset, ll) =>
      do ok <- lat_check ll;
      Some (ok && (rows offset =? arows l) && (cols offset =? acols l) && (lrows ll =? arows l) && (lcols ll =? acols l))
  end.
(* l.723-732 *)
Definition aff_rank (l : aff) : option nat := match aelems l with None => None | Some (_, ll) => Some (lrank ll) end.
(* l.734-740 *)
Definition aff_empty (r c : nat) : aff := Aff r c None.
(* l.742-757 *)
Definition to_offset_and_linear_lattice (l : aff) : option (mat * lat) := aelems l.
Definition take_point (l : aff) : option mat := match aelems l with Some (o, _) => Some o | None => None end.
(* l.759-777 *)
Definition from_offset_and_linear_lattice (r c : nat) (offset : mat) (ll : lat) : option aff :=
  assert! Nat.eqb (rows offset) r; assert! Nat.eqb (cols offset) c; assert! Nat.eqb (lrows ll) r; assert! Nat.eqb (lcols ll) c;
  let l := Aff r c (Some (offset, ll)) in
  do ok <- aff_check l; assert! ok; Some l.
(* l.756-773 *)
Definition aff_contains_point (l : aff) (m : mat) : option bool :=
  match aelems l with
  | None => Some false
  | Some (offset, ll) => do n <- neg offset; do d <- unwrap (add n m); contains_point ll d
  end.
(* l.776-808: the loop goes over the basis of `other` only; the offset of `other` itself is not tested *)
Definition aff_contains_sublattice (l other : aff) : option bool :=
  match aelems other with
  | None => Some true
  | Some (o_off, o_ll) =>
      match aelems l with
      | None => Some false
      | Some _ => allM (range 0 (lrank o_ll)) (fun bn => do b <- basis_matrix o_ll bn; do p <- unwrap (add b o_off); aff_contains_point l p)
      end
  end.
(* l.810-812 *)
Definition aff_equal (a b : aff) : option bool := do x <- aff_contains_sublattice a b; if x then aff_contains_sublattice b a else Some false.
(* l.814-846; Some None = early return of the empty lattice *)
Fixpoint aff_sum_loop (r c : nat) (ls : list aff) (off : mat) (acc : list lat) : option (option (mat * list lat)) :=
  match ls with
  | [] => Some (Some (off, acc))
  | l :: ls' =>
      assert! Nat.eqb (arows l) r; assert! Nat.eqb (acols l) c;
      match aelems l with
      | None => Some None
      | Some (o, ll) => do off' <- unwrap (add_mut off o); aff_sum_loop r c ls' off' (acc ++ [ll])
      end
  end.
Definition aff_sum (r c : nat) (ls : list aff) : option aff :=
  do z <- zero r c;
  do res <- aff_sum_loop r c ls z [];
  match res with
  | None => Some (aff_empty r c)
  | Some (off, lls) => do ll <- lat_sum r c lls; Some (Aff r c (Some (off, ll)))
  end.
(* l.887-918 *)
Definition offset_linlat_to_metamat (r c : nat) (offset : mat) (ll : lat) : option mat :=
  do m <- zero (1 + lrank ll) (1 + r * c);
  do m <- put m 0 0 r1;
  do m <- forM (range 0 (r * c)) (fun idx m => do rc <- m_idx_to_rc r c idx; do x <- get offset (fst rc) (snd rc); put m 0 (1 + idx) x) m;
  forM (range 0 (lrank ll)) (fun bn m => forM (range 0 (r * c)) (fun idx m =>
    do rc <- m_idx_to_rc r c idx; do x <- basis_matrix_element ll bn (fst rc) (snd rc); put m (1 + bn) (1 + idx) x) m) m.
(* l.955-961, 968-976: read a row of the Hermite form, without its first entry, as an r x c matrix *)
Definition row_to_mat (r c : nat) (h : mat) (i : nat) : option mat :=
  do z <- zero r c;
  forM (range 0 (r * c)) (fun idx m => do rc <- m_idx_to_rc r c idx; do x <- get h i (1 + idx); put m (fst rc) (snd rc) x) z.
(* l.920-1000 *)
Definition aff_intersect_pair (r c : nat) (l1 l2 : aff) : option aff :=
  assert! (Nat.eqb (arows l1) r && Nat.eqb (acols l1) c) && (Nat.eqb (arows l2) r && Nat.eqb (acols l2) c);
  match aelems l1, aelems l2 with
  | Some (o1, ll1), Some (o2, ll2) =>
      do m1 <- offset_linlat_to_metamat r c o1 ll1;
      do m2 <- offset_linlat_to_metamat r c o2 ll2;
      do im <- metamatrix_row_intersection (1 + r * c) m1 m2;
      if rows im =? 0 then Some (aff_empty r c)
      else
        do res <- hermite im;
        let '(h, _, _, pivs) := res in
        do a <- get h 0 0;
        assert! implb (is_unit div a) (req a r1);
        if req a r1 then
          do off <- row_to_mat r c h 0;
          do bs <- mapM (fun bn => do z <- get h (1 + bn) 0; assert! req z r0; row_to_mat r c h (1 + bn)) (range 0 (length pivs - 1));
          do ll <- from_basis r c bs;
          from_offset_and_linear_lattice r c off ll
        else Some (aff_empty r c)
  | _, _ => Some (aff_empty r c)
  end.
(* l.860-885 *)
Definition aff_intersect (r c : nat) (ls : list aff) : option aff :=
  match ls with
  | [] => do z <- zero r c; do i <- ident (r * c); Some (Aff r c (Some (z, Lat i r c)))
  | [l] => Some l
  | l0 :: l1 :: rest => fold_left (fun acc l => do a <- acc; aff_intersect_pair r c a l) rest (aff_intersect_pair r c l0 l1)
  end.
(* matrix.rs l.745-783 *)
Definition row_affine_span (a : mat) : option aff :=
  if rows a =? 0 then Some (aff_empty 1 (cols a))
  else
    do offset <- get_row a 0;
    do b <- construct (rows a - 1) (cols a) (fun r c => do x <- get offset 0 c; do y <- get a (r + 1) c; Some (radd (rneg x) y));
    do ll <- row_span b;
    from_offset_and_linear_lattice 1 (cols a) offset ll.
Definition col_affine_span (a : mat) : option aff :=
  if cols a =? 0 then Some (aff_empty (rows a) 1)
  else
    do offset <- get_col a 0;
    do b <- construct (rows a) (cols a - 1) (fun r c => do x <- get offset r 0; do y <- get a r (c + 1); Some (radd (rneg x) y));
    do ll <- col_span b;
    from_offset_and_linear_lattice (rows a) 1 offset ll.
(* l.869-891 *)
Definition row_solution_lattice (m y : mat) : option aff :=
  do o <- row_solve m y;
  match o with
  | Some x => do k <- row_kernel m; from_offset_and_linear_lattice 1 (rows m) x k
  | None => Some (aff_empty 1 (rows m))
  end.
Definition col_solution_lattice (m y : mat) : option aff :=
  do o <- col_solve m y;
  match o with
  | Some x => do k <- col_kernel m; from_offset_and_linear_lattice (cols m) 1 x k
  | None => Some (aff_empty (cols m) 1)
  end.
End Lat.
