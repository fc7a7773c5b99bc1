(* C35, C36, C61, C62: solving, kernels, linear and affine lattices.  All theorems are about any Bezout domain (bezout_laws of
   MatSpec, met by the integers and by every field, MatInst); the predicates has_basis, is_lattice, is_affine, sumset are those of LatSpec. *)
From Coq Require Import ZArith NArith.
From mathcomp Require Import all_ssreflect all_algebra.
From Coq Require Import Lia.
From Verif Require Import RingSpec RingModel PermModel MatModel MatSpec MatProofs2 ZRing MatInst LatModel LatSpec LatProofs LatProofs2 LatProofs3 LatProofs4 LatProofs5.
Close Scope rs_scope.
Set Implicit Arguments.
Unset Strict Implicit.
Unset Printing Implicit Defensive.
Import GRing.Theory.
Local Open Scope ring_scope.

Section Bez.
Variable R : idomainType.
Notation O := (mc_ops R).
Notation mat := (matrix (T O)).
Variables (div : div_op O) (ffa : ffa_op O) (xgcd : R -> R -> R * R * R).
Hypothesis BZ : bezout_laws div ffa xgcd.
Variables p q : nat.
Implicit Types (M A : 'M[R]_(p,q)) (P Q : 'M[R]_(p,q) -> Prop).

(* ------------------------------------------------------------------ C35 *)
Theorem C35_col_solve (m y : mat) A (Y : 'cV[R]_p) : represents m A -> represents y Y ->
  exists o, col_solve div ffa xgcd m y = Some o /\
    match o with Some x => exists X : 'cV[R]_q, represents x X /\ A *m X = Y | None => forall X : 'cV[R]_q, A *m X <> Y end.
Proof. exact: (col_solve_ok BZ). Qed.
Theorem C35_row_solve (m y : mat) A (Y : 'rV[R]_q) : represents m A -> represents y Y ->
  exists o, row_solve div ffa xgcd m y = Some o /\
    match o with Some x => exists X : 'rV[R]_p, represents x X /\ X *m A = Y | None => forall X : 'rV[R]_p, X *m A <> Y end.
Proof. exact: (row_solve_ok BZ). Qed.
Theorem C35_row_kernel (m : mat) A : represents m A -> exists l, row_kernel div ffa xgcd m = Some l /\ is_lattice l (fun x : 'rV[R]_p => x *m A = 0).
Proof. exact: (row_kernel_ok BZ). Qed.
Theorem C35_col_kernel (m : mat) A : represents m A -> exists l, col_kernel div ffa xgcd m = Some l /\ is_lattice l (fun x : 'cV[R]_q => A *m x = 0).
Proof. exact: (col_kernel_ok BZ). Qed.
Theorem C35_row_solution_lattice (m y : mat) A (Y : 'rV[R]_q) : represents m A -> represents y Y ->
  exists l, row_solution_lattice div ffa xgcd m y = Some l /\ is_affine l (fun X : 'rV[R]_p => X *m A = Y).
Proof. exact: (row_solution_ok BZ). Qed.
Theorem C35_col_solution_lattice (m y : mat) A (Y : 'cV[R]_p) : represents m A -> represents y Y ->
  exists l, col_solution_lattice div ffa xgcd m y = Some l /\ is_affine l (fun X : 'cV[R]_q => A *m X = Y).
Proof. exact: (col_solution_ok BZ). Qed.

(* ------------------------------------------------------------------ C36 *)
Definition represents_all k (ms : list mat) (Bs : 'I_k -> 'M[R]_(p,q)) : Prop :=
  length ms = k /\ forall i : 'I_k, exists m, List.nth_error ms i = Some m /\ represents m (Bs i).
(* the lattice spanned by any list of matrices *)
Theorem C36_from_span k (ms : list mat) (Bs : 'I_k -> 'M[R]_(p,q)) : represents_all ms Bs ->
  exists l, from_span div ffa xgcd p q ms = Some l /\ is_lattice l (lspan Bs).
Proof. exact: (from_span_ok BZ). Qed.
(* from_basis succeeds exactly for linearly independent matrices, and then the basis is kept *)
Theorem C36_from_basis k (ms : list mat) (Bs : 'I_k -> 'M[R]_(p,q)) : represents_all ms Bs ->
  (independent Bs -> exists l, from_basis div ffa xgcd p q ms = Some l /\ has_basis l Bs) /\ (~ independent Bs -> from_basis div ffa xgcd p q ms = None).
Proof. move=> H. split=> HI; [exact: (from_basis_ok BZ H HI)|exact: (from_basis_dep BZ H HI)]. Qed.
(* a list with a matrix of another shape is refused *)
Theorem C36_wrong_shape (ms : list mat) m : List.In m ms -> (rows m, cols m) <> (p, q) -> from_span div ffa xgcd p q ms = None /\ from_basis div ffa xgcd p q ms = None.
Proof. move=> H1 H2. by rewrite /from_span /from_basis (mats_to_rows_bad H1 H2). Qed.
Theorem C36_basis_matrices k l (Bs : 'I_k -> 'M[R]_(p,q)) : has_basis l Bs ->
  lrank (R := O) l = k /\ exists ms, basis_matrices (R := O) l = Some ms /\ represents_all ms Bs.
Proof. move=> H. split; [exact: lrank_ok H|exact: basis_matrices_ok]. Qed.
Theorem C36_row_span (m : mat) A : represents m A -> exists l, row_span div ffa xgcd m = Some l /\ is_lattice l (fun x : 'rV[R]_q => exists c, x = c *m A).
Proof. exact: (row_span_ok BZ). Qed.
Theorem C36_col_span (m : mat) A : represents m A -> exists l, col_span div ffa xgcd m = Some l /\ is_lattice l (fun x : 'cV[R]_p => exists c, x = A *m c).
Proof. exact: (col_span_ok BZ). Qed.
Theorem C36_contains_point l P (m : mat) M : is_lattice l P -> represents m M -> exists b, contains_point div ffa xgcd l m = Some b /\ (b <-> P M).
Proof. exact: (contains_point_ok BZ). Qed.
Theorem C36_contains_sublattice l l' P Q : is_lattice l P -> is_lattice l' Q -> exists b, contains_sublattice div ffa xgcd l l' = Some b /\ (b <-> forall M, Q M -> P M).
Proof. exact: (contains_sublattice_ok BZ). Qed.
Theorem C36_equal l l' P Q : is_lattice l P -> is_lattice l' Q -> exists b, lat_equal div ffa xgcd l l' = Some b /\ (b <-> forall M, P M <-> Q M).
Proof. exact: (lat_equal_ok BZ). Qed.
(* sum and intersection of any finite list of lattices *)
Theorem C36_sum ls (Ps : list ('M[R]_(p,q) -> Prop)) : List.Forall2 (@is_lattice R p q) ls Ps ->
  exists l, lat_sum div ffa xgcd p q ls = Some l /\ is_lattice l (sumset Ps).
Proof. exact: (lat_sum_ok BZ). Qed.
Theorem C36_intersect ls (Ps : list ('M[R]_(p,q) -> Prop)) : List.Forall2 (@is_lattice R p q) ls Ps ->
  exists l, lat_intersect div ffa xgcd p q ls = Some l /\ is_lattice l (fun M => List.Forall (fun P : _ -> Prop => P M) Ps).
Proof. exact: (lat_intersect_ok BZ). Qed.
Theorem C36_transpose l P : is_lattice l P -> exists l', lat_transpose (R := O) l = Some l' /\ is_lattice l' (fun M : 'M[R]_(q,p) => P M^T).
Proof. exact: transpose_ok. Qed.

(* take_nonzero_point: a nonzero point of the lattice; None exactly for the zero lattice *)
Theorem C36_take_nonzero_point l P : is_lattice l P -> exists o, take_nonzero_point (R := O) l = Some o /\
  match o with Some m => exists M, represents m M /\ P M /\ M <> 0 | None => forall M, P M -> M = 0 end.
Proof.
  case=> k [Bs [HB HP]]. rewrite /take_nonzero_point (lrank_ok HB).
  case: k Bs HB HP => [|k] Bs HB HP.
  - exists None. split=> // M /HP [c ->]. by rewrite big_ord0.
  - have [m [E1 E2]] := basis_matrix_ok ord0 HB. exists (Some m). rewrite [X in do b <- X; _]E1. split=> //. exists (Bs ord0).
    have [_ _ _ HI] := HB. have dl (j : 'I_k.+1) : \sum_i (i == j)%:R *: Bs i = Bs j.
    { rewrite (bigD1 j) //= eqxx scale1r big1 ?addr0 // => i /negPf ->. by rewrite scale0r. }
    split=> //. split; first by apply/HP; exists (fun i => (i == ord0)%:R). move=> E0. have := HI (fun i => (i == ord0)%:R).
    rewrite dl => /(_ E0 ord0) /eqP. by rewrite oner_eq0.
Qed.

(* ------------------------------------------------------------------ C61 *)
Theorem C61_from_offset o ll (X : 'M[R]_(p,q)) Q : represents o X -> is_lattice ll Q ->
  exists l, from_offset_and_linear_lattice div ffa xgcd p q o ll = Some l /\ is_affine l (fun M => Q (M - X)).
Proof. exact: (from_offset_ok BZ). Qed.
Theorem C61_contains_point l P (m : mat) M : is_affine l P -> represents m M -> exists b, aff_contains_point div ffa xgcd l m = Some b /\ (b <-> P M).
Proof. exact: (aff_contains_point_ok BZ). Qed.
Theorem C61_sum ls (Ps : list ('M[R]_(p,q) -> Prop)) : List.Forall2 (@is_affine R p q) ls Ps ->
  exists l, aff_sum div ffa xgcd p q ls = Some l /\ is_affine l (sumset Ps).
Proof. exact: (aff_sum_ok BZ). Qed.
Theorem C61_intersect ls (Ps : list ('M[R]_(p,q) -> Prop)) : List.Forall2 (@is_affine R p q) ls Ps ->
  exists l, aff_intersect div ffa xgcd p q ls = Some l /\ is_affine l (fun M => List.Forall (fun P : _ -> Prop => P M) Ps).
Proof. exact: (aff_intersect_ok BZ). Qed.
Theorem C61_row_affine_span (m : mat) A : represents m A -> exists l, row_affine_span div ffa xgcd m = Some l /\
  is_affine l (fun x : 'rV[R]_q => exists c : 'rV[R]_p, \sum_i c 0 i = 1 /\ x = c *m A).
Proof. exact: (row_affine_span_ok BZ). Qed.
Theorem C61_col_affine_span (m : mat) A : represents m A -> exists l, col_affine_span div ffa xgcd m = Some l /\
  is_affine l (fun x : 'cV[R]_p => exists c : 'cV[R]_q, \sum_i c i 0 = 1 /\ x = A *m c).
Proof. exact: (col_affine_span_ok BZ). Qed.
(* contains_sublattice and equal: a true inclusion / equality is always recognised.  Missing: the converse, which fails (below) *)
Theorem C61_contains_sublattice_partial l l' P Q : is_affine l P -> is_affine l' Q ->
  exists b, aff_contains_sublattice div ffa xgcd l l' = Some b /\ ((forall M, Q M -> P M) -> b = true).
Proof. exact: (aff_sub_ok BZ). Qed.
Theorem C61_equal_partial l l' P Q : is_affine l P -> is_affine l' Q ->
  exists b, aff_equal div ffa xgcd l l' = Some b /\ ((forall M, P M <-> Q M) -> b = true).
Proof.
  move=> HP HQ. rewrite /aff_equal. case: (aff_sub_ok BZ HP HQ) => b [-> Hb] /=. case: b Hb => Hb.
  - case: (aff_sub_ok BZ HQ HP) => b [-> Hb']. exists b. split=> // H. apply: Hb' => M. by rewrite H.
  - exists false. split=> // H. apply: Hb => M. by rewrite H.
Qed.
End Bez.
Print Assumptions C35_col_solve. Print Assumptions C35_row_solve. Print Assumptions C35_row_kernel. Print Assumptions C35_col_kernel.
Print Assumptions C35_row_solution_lattice. Print Assumptions C35_col_solution_lattice.
Print Assumptions C36_from_span. Print Assumptions C36_from_basis. Print Assumptions C36_wrong_shape. Print Assumptions C36_basis_matrices.
Print Assumptions C36_row_span. Print Assumptions C36_col_span. Print Assumptions C36_contains_point. Print Assumptions C36_contains_sublattice.
Print Assumptions C36_equal. Print Assumptions C36_sum. Print Assumptions C36_intersect. Print Assumptions C36_transpose. Print Assumptions C36_take_nonzero_point.
Print Assumptions C61_from_offset. Print Assumptions C61_contains_point. Print Assumptions C61_sum. Print Assumptions C61_intersect.
Print Assumptions C61_row_affine_span. Print Assumptions C61_col_affine_span. Print Assumptions C61_contains_sublattice_partial. Print Assumptions C61_equal_partial.

(* ------------------------------------------------------------------ the integers *)
Notation ZO := (mc_ops Z_comRingType).
Definition zm (r c : nat) (l : list Z) : matrix Z := Mat r c false false false l.
Definition z_from_span := @from_span ZO Zdiv Zffa Zxgcd.
Definition z_from_basis := @from_basis ZO Zdiv Zffa Zxgcd.
Definition z_from_offset := @from_offset_and_linear_lattice ZO Zdiv Zffa Zxgcd.
Definition z_aff_equal := @aff_equal ZO Zdiv Zffa Zxgcd.
Definition z_aff_contains := @aff_contains_point ZO Zdiv Zffa Zxgcd.
Definition z_contains := @contains_point ZO Zdiv Zffa Zxgcd.
Definition basis_entries (l : option (linlat Z)) : option (list Z) := option_map (fun l => elems (meta l)) l.
(* the point 0 and the point 1 on the line: equal() says they are the same affine lattice *)
Theorem C61_equal_refuted : exists a b : afflat Z, [/\
  (do l <- z_from_basis 1 1 [::]; z_from_offset 1 1 (zm 1 1 [:: Z0]) l) = Some a, (do l <- z_from_basis 1 1 [::]; z_from_offset 1 1 (zm 1 1 [:: Zpos 1]) l) = Some b,
  z_aff_contains a (zm 1 1 [:: Z0]) = Some true /\ z_aff_contains b (zm 1 1 [:: Z0]) = Some false & z_aff_equal a b = Some true].
Proof. do 2!eexists. split; [vm_compute; reflexivity|vm_compute; reflexivity|vm_compute; by []|vm_compute; by []]. Qed.
(* and with positive rank: the line x + y = 1 is said to contain the whole plane *)
Theorem C61_contains_sublattice_refuted : exists line plane : afflat Z, [/\
  (do l <- z_from_basis 2 1 [:: zm 2 1 [:: Zpos 1; Zneg 1]]; z_from_offset 2 1 (zm 2 1 [:: Zpos 1; Z0]) l) = Some line,
  (do l <- z_from_basis 2 1 [:: zm 2 1 [:: Zpos 1; Z0]; zm 2 1 [:: Z0; Zpos 1]]; z_from_offset 2 1 (zm 2 1 [:: Z0; Z0]) l) = Some plane,
  z_aff_contains line (zm 2 1 [:: Z0; Z0]) = Some false /\ z_aff_contains plane (zm 2 1 [:: Z0; Z0]) = Some true &
  @aff_contains_sublattice ZO Zdiv Zffa Zxgcd line plane = Some true].
Proof. do 2!eexists. split; [vm_compute; reflexivity|vm_compute; reflexivity|vm_compute; by []|vm_compute; by []]. Qed.
(* 2Z as an intersection of hyperplanes of Z: the answer is the empty intersection, which is Z *)
Theorem C62_hyperplanes_refuted : exists l : linlat Z, [/\ z_from_basis 1 1 [:: zm 1 1 [:: Zpos 2]] = Some l,
  @as_hyperplane_intersection ZO Zdiv Zffa Zxgcd l = Some [::] & exists w, [/\ @lat_intersect ZO Zdiv Zffa Zxgcd 1 1 [::] = Some w,
    z_contains w (zm 1 1 [:: Zpos 1]) = Some true & z_contains l (zm 1 1 [:: Zpos 1]) = Some false]].
Proof. eexists. split; [vm_compute; reflexivity|vm_compute; by []|]. eexists. split; [vm_compute; reflexivity|vm_compute; by []|vm_compute; by []]. Qed.
(* extension_basis of 2Z inside Z is empty, although 2Z <> Z *)
Theorem C62_extension_basis_refuted : exists a b : linlat Z, [/\ z_from_basis 1 1 [:: zm 1 1 [:: Zpos 2]] = Some a, z_from_basis 1 1 [:: zm 1 1 [:: Zpos 1]] = Some b,
  @extension_basis ZO Zdiv Zffa Zxgcd a b = Some [::] & @lat_equal ZO Zdiv Zffa Zxgcd a b = Some false].
Proof. do 2!eexists. split; [vm_compute; reflexivity|vm_compute; reflexivity|vm_compute; by []|vm_compute; by []]. Qed.
Print Assumptions C61_equal_refuted. Print Assumptions C61_contains_sublattice_refuted. Print Assumptions C62_hyperplanes_refuted. Print Assumptions C62_extension_basis_refuted.

(* the contract is met by the integers, and the functions compute *)
Definition C35_int_col_solve := @C35_col_solve Z_idomainType Zdiv Zffa Zxgcd Zbezout.
Example C35_ex : (exists x, @col_solve ZO Zdiv Zffa Zxgcd (zm 2 3 [:: Zpos 1; Zpos 2; Zpos 3; Zpos 4; Zpos 5; Zpos 6]) (zm 2 1 [:: Zpos 3; Zpos 6]) = Some (Some x)) /\
  @col_solve ZO Zdiv Zffa Zxgcd (zm 1 2 [:: Zpos 4; Zpos 6]) (zm 1 1 [:: Zpos 3]) = Some None.
Proof. vm_compute. split; [by eexists|by []]. Qed.
Example C36_ex : basis_entries (z_from_span 1 2 [:: zm 1 2 [:: Zpos 4; Z0]; zm 1 2 [:: Zpos 6; Z0]; zm 1 2 [:: Z0; Zpos 5]]) = Some [:: Zpos 2; Z0; Z0; Zpos 5] /\
  z_from_basis 1 2 [:: zm 1 2 [:: Zpos 4; Z0]; zm 1 2 [:: Zpos 6; Z0]] = None /\
  basis_entries (do a <- z_from_basis 1 1 [:: zm 1 1 [:: Zpos 4]]; do b <- z_from_basis 1 1 [:: zm 1 1 [:: Zpos 6]]; @lat_intersect ZO Zdiv Zffa Zxgcd 1 1 [:: a; b]) = Some [:: Zpos 12] /\
  basis_entries (do a <- z_from_basis 1 1 [:: zm 1 1 [:: Zpos 4]]; do b <- z_from_basis 1 1 [:: zm 1 1 [:: Zpos 6]]; @lat_sum ZO Zdiv Zffa Zxgcd 1 1 [:: a; b]) = Some [:: Zpos 2].
Proof. vm_compute. by []. Qed.
