(* C30, C31, C32, C33: matrices *)
From Coq Require Import ZArith NArith.
From mathcomp Require Import all_ssreflect all_algebra.
From Coq Require Import Lia.
From Verif Require Import RingSpec RingModel PermModel MatModel MatSpec MatViewSpec ZRing MatInst.
From Verif Require Import MatProofs MatProofs2 MatProofs3 MatProofs4 MatProofs5 MatProofs6 MatProofs7 MatProofs8.
Close Scope rs_scope.
Set Implicit Arguments.
Unset Strict Implicit.
Unset Printing Implicit Defensive.
Import GRing.Theory.
Local Open Scope ring_scope.

(* ---------- C30: views.  [shows m s]: rows(), cols() and at(r,c) of m are those of the mathematical matrix s, for all r, c *)
Theorem C30_history (A : Type) (m : matrix A) (s : smat A) (os : list (vop A)) : shows m s ->
  exists m', vrun m os = Some (m', snd (srun s os)) /\ shows m' (fst (srun s os)).
Proof. exact: vrun_ok. Qed.
Print Assumptions C30_history.
Theorem C30_construct (A : Type) p q (f : nat -> nat -> A) :
  (exists m, construct p q (fun r c => Some (f r c)) = Some m /\ shows m (SMat p q f)) /\ (forall a : A, shows (full p q a) (SMat p q (fun _ _ => a))).
Proof. split; first exact: construct_shows. move=> a. apply/shows_shape. exact: full_shape. Qed.
Print Assumptions C30_construct.
Theorem C30_from_rows (A : Type) (d : A) (rs : list (list A)) q : rs <> nil -> (forall row, List.In row rs -> length row = q) ->
  (exists m, from_rows rs = Some m /\ shows m (SMat (length rs) q (fun r c => List.nth c (List.nth r rs nil) d))) /\
  (exists m, from_cols rs = Some m /\ shows m (SMat q (length rs) (fun r c => List.nth r (List.nth c rs nil) d))).
Proof.
  move=> H1 H2. case: (from_rows_shows d rs q H1 H2) => m [E S]. split; first by exists m.
  exists (transpose m). rewrite /from_cols E. split=> //. apply/shows_shape. exact: (shape_tr _ _ _ _ (proj1 (shows_shape _ _) S)).
Qed.
Print Assumptions C30_from_rows.
Theorem C30_from_rows_ragged (A : Type) (rs : list (list A)) row : List.In row rs -> length row <> length (List.hd nil rs) -> from_rows rs = None.
Proof. exact: from_rows_bad. Qed.
Print Assumptions C30_from_rows_ragged.
Example C30_ex : exists m m', from_rows [:: [:: 1; 2; 3]; [:: 4; 5; 6]]%N = Some m /\
  vrun m [:: VFlipCols; VTranspose; VWrite 2 1 9%N; VFlipRows; VWrite 0 5 7%N] = Some (m', [:: true; true; true; true; false]) /\
  at_ m' 0 1 = Some (Ok 9%N) /\ at_ m' 2 0 = Some (Ok 3%N) /\ at_ m' 0 2 = Some (Err InvalidIndex).
Proof. by eexists; eexists; repeat split; vm_compute. Qed.

(* ---------- C31: arithmetic over any commutative ring.  [represents m M]: m shows the matrix M of the mathcomp library *)
Section Arith.
Variable R : comRingType.
Notation O := (mc_ops R).
Notation mat := (matrix (T O)).
Theorem C31_add p q (a b : mat) (A B : 'M[R]_(p,q)) : represents a A -> represents b B -> exists c, add a b = Some (Ok c) /\ represents c (A + B).
Proof. exact: add_repr. Qed.
Theorem C31_neg p q (a : mat) (A : 'M[R]_(p,q)) : represents a A -> exists c, neg a = Some c /\ represents c (- A).
Proof. exact: neg_repr. Qed.
Theorem C31_mul p k q (a b : mat) (A : 'M[R]_(p,k)) (B : 'M[R]_(k,q)) : represents a A -> represents b B -> exists c, mul a b = Some (Ok c) /\ represents c (A *m B).
Proof. exact: mul_repr. Qed.
Theorem C31_mul_scalar p q (a : mat) (A : 'M[R]_(p,q)) (x : R) : represents a A -> exists c, mul_scalar a x = Some c /\ represents c (x *: A).
Proof. exact: mul_scalar_repr. Qed.
Theorem C31_zero_ident_diag : (forall p q, exists m : mat, zero p q = Some m /\ represents m (0 : 'M[R]_(p,q))) /\
  (forall n, exists m : mat, ident n = Some m /\ represents m (1%:M : 'M[R]_n)) /\
  (forall d : list R, exists m : mat, diag (d : list (T O)) = Some m /\ represents m (\matrix_(i < length d, j < length d) (nth 0 d i *+ (i == j)))).
Proof. split; [exact: zero_repr|split; [exact: ident_repr|exact: diag_repr]]. Qed.
Theorem C31_equal p q (a b : mat) (A B : 'M[R]_(p,q)) : represents a A -> represents b B -> equal a b = Some (A == B).
Proof. exact: equal_repr. Qed.
Theorem C31_dot p q (a b : mat) (A B : 'M[R]_(p,q)) : represents a A -> represents b B -> dot a b = Some (\sum_i \sum_j A i j * B i j).
Proof. exact: dot_repr. Qed.
Theorem C31_trace n (a : mat) (A : 'M[R]_n) : represents a A -> trace a = Some (Ok (\tr A)).
Proof. exact: trace_repr. Qed.
(* \det is the Leibniz sum over all permutations, see mathcomp.algebra.matrix *)
Theorem C31_det_naive n (a : mat) (A : 'M[R]_n) : represents a A -> det_naive a = Some (Ok (\det A)).
Proof. exact: det_naive_repr. Qed.
Theorem C31_nat_pow n (a : mat) (A : 'M[R]_n) (k : N) : represents a A -> exists c, mat_nat_pow a k = Some c /\ represents c (mxpow A (N.to_nat k)).
Proof. exact: mat_nat_pow_repr. Qed.
(* incompatible shapes: an error, never a wrong answer; equal says false *)
Theorem C31_shape_errors (a b : mat) :
  ((rows a, cols a) <> (rows b, cols b) -> add a b = Some (Err DimMissmatch) /\ equal a b = Some false) /\
  (cols a <> rows b -> mul a b = Some (Err DimMissmatch)) /\
  (rows a <> cols a -> trace a = Some (Err NotSquare) /\ det_naive a = Some (Err NotSquare) /\ forall k, mat_nat_pow a k = None).
Proof.
  split; [|split].
  - move=> H. split; [exact: add_err|exact: equal_dims].
  - exact: mul_err.
  - move=> H. split; [exact: trace_err|split; [exact: det_naive_err|]]. move=> k. rewrite /mat_nat_pow eqb_nat. by case: eqP.
Qed.
Theorem C31_join_diag (mats : list mat) ss : List.Forall2 shows mats ss ->
  exists j, join_diag (length mats).+1 mats = Some j /\ shows j (SMat (sum_rows ss) (sum_cols ss) (along_diag (0 : R) ss)).
Proof. move=> H. apply: join_diag_shows H. lia. Qed.
End Arith.
Print Assumptions C31_add. Print Assumptions C31_neg. Print Assumptions C31_mul. Print Assumptions C31_mul_scalar. Print Assumptions C31_zero_ident_diag.
Print Assumptions C31_equal. Print Assumptions C31_dot. Print Assumptions C31_trace. Print Assumptions C31_det_naive. Print Assumptions C31_nat_pow.
Print Assumptions C31_shape_errors. Print Assumptions C31_join_diag.
Theorem C31_submatrix (A : Type) p q (m : matrix A) (M : 'M[A]_(p,q)) (rs cs : list nat) p' q' (f : 'I_p' -> 'I_p) (g : 'I_q' -> 'I_q) :
  represents m M -> length rs = p' -> length cs = q' ->
  (forall i : 'I_p', List.nth i rs 0%N = f i) -> (forall j : 'I_q', List.nth j cs 0%N = g j) ->
  exists m', submatrix m rs cs = Some m' /\ represents m' (\matrix_(i, j) M (f i) (g j)).
Proof. exact: submatrix_repr. Qed.
Print Assumptions C31_submatrix.
Theorem C31_joins (A : Type) (d : A) mats ss : List.Forall2 shows mats ss ->
  (forall q, List.Forall (fun s => scols s = q) ss -> exists j, join_rows q mats = Some j /\ shows j (SMat (sum_rows ss) q (stacked d ss))) /\
  (forall p, List.Forall (fun s => srows s = p) ss -> exists j, join_cols p mats = Some j /\ shows j (SMat p (sum_cols ss) (beside d ss))) /\
  (forall q m, List.In m mats -> cols m <> q -> join_rows q mats = None).
Proof.
  move=> H. split; [|split].
  - move=> q Hq. exact: join_rows_shows.
  - move=> p Hp. exact: join_cols_shows.
  - move=> q m. exact: join_rows_bad.
Qed.
Print Assumptions C31_joins.
Theorem C31_apply_map (A B : Type) p q (m : matrix A) (M : 'M[A]_(p,q)) (g : A -> B) : represents m M -> represents (apply_map g m) (map_mx g M).
Proof. exact: repr_apply_map. Qed.
Print Assumptions C31_apply_map.
(* the hypotheses are met: a 2 x 2 integer matrix seen through a transposed and flipped view *)
Definition exm : matrix Z := flip_rows (transpose (Mat 2 2 false false false [:: Zpos 1; Zpos 2; Zpos 3; Zpos 4])).
Definition exM : 'M[Z]_2 := \matrix_(i, j) nth Z0 (nth nil [:: [:: Zpos 2; Zpos 4]; [:: Zpos 1; Zpos 3]] i) j.
Lemma exm_repr : represents exm exM.
Proof. split=> //. split=> //. by case=> -[|[|i]] Hi; case=> -[|[|j]] Hj //; rewrite mxE. Qed.
Example C31_ex : @det_naive (mc_ops Z_comRingType) exm = Some (Ok (Zpos 2)) /\ @trace (mc_ops Z_comRingType) exm = Some (Ok (Zpos 5)) /\
  exists c, unwrap (@mul (mc_ops Z_comRingType) exm exm) = Some c /\ elems c = [:: Zpos 8; Zpos 20; Zpos 5; Zpos 13].
Proof. split; [|split]; [by vm_compute|by vm_compute|]. eexists. by split; vm_compute. Qed.

(* ---------- C32: Hermite normal form over any integral domain with division test, favourite associates and xgcd *)
Section Bez.
Variable R : idomainType.
Notation O := (mc_ops R).
Notation mat := (matrix (T O)).
Variables (div : div_op O) (ffa : ffa_op O) (xgcd : R -> R -> R * R * R).
Theorem C32_row_hermite p q (m : mat) (A : 'M[R]_(p,q)) : bezout_laws div ffa xgcd -> represents m A ->
  exists h u u_det pivs H U, [/\ row_hermite_algorithm div ffa xgcd m = Some (h, u, u_det, pivs), represents h H, represents u U,
     [/\ H = U *m A, u_det = \det U & U \in unitmx] & echelon ffa H pivs].
Proof. move=> B. exact: row_hermite_ok. Qed.
Theorem C32_col_hermite p q (m : mat) (A : 'M[R]_(p,q)) : bezout_laws div ffa xgcd -> represents m A ->
  exists h u u_det pivs H U, [/\ col_hermite_algorithm div ffa xgcd m = Some (h, u, u_det, pivs), represents h H, represents u U,
     [/\ H = A *m U, u_det = \det U & U \in unitmx] & echelon ffa H^T pivs].
Proof. move=> B. exact: col_hermite_ok. Qed.
(* over a Euclidean domain: the entries above every pivot are moreover reduced modulo the pivot *)
Variables (norm : R -> option N) (quorem : R -> R -> option (R * R)).
Theorem C32_row_reduced p q (m : mat) (A : 'M[R]_(p,q)) : bezout_laws div ffa xgcd -> euclid_laws O norm quorem -> represents m A ->
  exists h u pivs H U, [/\ row_reduced_hermite_algorithm div ffa xgcd quorem m = Some (h, u, pivs), represents h H, represents u U,
     (H = U *m A /\ U \in unitmx) & (echelon ffa H pivs /\ reduced_above norm H pivs)].
Proof. move=> B E. exact: row_reduced_ok. Qed.
Theorem C32_col_reduced p q (m : mat) (A : 'M[R]_(p,q)) : bezout_laws div ffa xgcd -> euclid_laws O norm quorem -> represents m A ->
  exists h u pivs H U, [/\ col_reduced_hermite_algorithm div ffa xgcd quorem m = Some (h, u, pivs), represents h H, represents u U,
     (H = A *m U /\ U \in unitmx) & (echelon ffa H^T pivs /\ reduced_above norm H^T pivs)].
Proof. move=> B E. exact: col_reduced_ok. Qed.
(* ---------- C33 *)
Theorem C33_det n (m : mat) (A : 'M[R]_n) : bezout_laws div ffa xgcd -> represents m A ->
  det div ffa xgcd m = Some (Ok (\det A)) /\ det_naive m = Some (Ok (\det A)) /\ det_hermite div ffa xgcd m = Some (\det A).
Proof. move=> B H. split; [exact: det_ok|split; [exact: det_naive_repr|exact: det_hermite_ok]]. Qed.
Theorem C33_det_not_square (m : mat) : rows m <> cols m -> det div ffa xgcd m = Some (Err NotSquare).
Proof. exact: det_err. Qed.
Theorem C33_rank p q (m : mat) (A : 'M[R]_(p,q)) : bezout_laws div ffa xgcd -> represents m A -> rank div ffa xgcd m = Some (frac_rank A).
Proof. move=> B. exact: rank_ok. Qed.
(* inv returns the inverse exactly when there is one over the ring.  The norm must not drop on multiples (true of |.|, degree and fields):
   otherwise the reduced Hermite form of an invertible matrix need not be the identity *)
Theorem C33_inverse n (m : mat) (A : 'M[R]_n) : bezout_laws div ffa xgcd -> euclid_laws O norm quorem -> norm_mono O norm -> represents m A ->
  exists o, mat_inv div ffa xgcd quorem m = Some o /\
   match o with Some u => A \in unitmx /\ represents u (invmx A) | None => A \notin unitmx end.
Proof. move=> B E M H. exact: (mat_inv_ok B E M H). Qed.
End Bez.
Print Assumptions C32_row_hermite. Print Assumptions C32_col_hermite. Print Assumptions C32_row_reduced. Print Assumptions C32_col_reduced.
Print Assumptions C33_det. Print Assumptions C33_det_not_square. Print Assumptions C33_rank. Print Assumptions C33_inverse.
(* the contracts hold for the integers with the library's own euclidean_xgcd, and for every field with the library's blanket implementations *)
Theorem C32_contracts : (@bezout_laws Z_idomainType Zdiv Zffa Zxgcd /\ euclid_laws (mc_ops Z_comRingType) Znorm Zquorem /\ norm_mono (mc_ops Z_comRingType) Znorm) /\
  forall F : fieldType, @bezout_laws F (@Fdiv F) (@Fffa F) (@Fxgcd F) /\ euclid_laws (mc_ops [comRingType of F]) (@Fnorm F) (@Fquorem F) /\ norm_mono (mc_ops [comRingType of F]) (@Fnorm F).
Proof. split; [exact: (conj Zbezout (conj Zeuclid Zmono))|]. move=> F. exact: (conj (@Fbezout F) (conj (@Feuclid F) (@Fmono F))). Qed.
Print Assumptions C32_contracts.
Definition exm2 : matrix Z := Mat 3 2 false false false [:: Zpos 4; Zpos 6; Z0; Zpos 5; Zpos 6; Zpos 1].
Example C32_ex : match @row_reduced_hermite_algorithm (mc_ops Z_comRingType) Zdiv Zffa Zxgcd Zquorem exm2 with
  | Some (h, u, pivs) => elems h = [:: Zpos 2; Z0; Z0; Zpos 1; Z0; Z0] /\ pivs = [:: 0; 1]%N /\ @det_naive (mc_ops Z_comRingType) u = Some (Ok (Zpos 1)) | None => False end.
Proof. vm_compute. by []. Qed.
Definition exm4 : matrix Z := Mat 4 4 false false false [:: Z0; Zpos 2; Z0; Zpos 1; Zpos 3; Z0; Zpos 1; Z0; Zpos 1; Zpos 1; Zneg 1; Zpos 2; Z0; Zpos 4; Z0; Zpos 1].
Example C33_ex : [/\ @det (mc_ops Z_comRingType) Zdiv Zffa Zxgcd exm4 = Some (Ok (Zneg 8)), @rank (mc_ops Z_comRingType) Zdiv Zffa Zxgcd exm2 = Some 2%N,
  option_map (option_map (@elems Z)) (@mat_inv (mc_ops Z_comRingType) Zdiv Zffa Zxgcd Zquorem (Mat 2 2 false false false [:: Zpos 2; Zpos 3; Zpos 1; Zpos 2])) = Some (Some [:: Zpos 2; Zneg 3; Zneg 1; Zpos 2]) &
  @mat_inv (mc_ops Z_comRingType) Zdiv Zffa Zxgcd Zquorem (Mat 2 2 false false false [:: Zpos 2; Zpos 3; Zpos 1; Zpos 4]) = Some None].
Proof. vm_compute. by []. Qed.
