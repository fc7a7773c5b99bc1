(* Interpolation by solving the Vandermonde system *)
From Coq Require Import List Arith NArith Bool.
From mathcomp Require Import all_ssreflect all_algebra.
From mathcomp Require Import zify.
From Coq Require Import Lia.
From Verif Require Import RingSpec RingModel RingProofs PermModel MatModel MatSpec MatProofs MatProofs2 LatModel LatProofs3 PolyModel PolyModel2 PolyProofs PolyProofs2 PolyProofs3 PolyProofs4.
Close Scope rs_scope.
Set Implicit Arguments.
Unset Strict Implicit.
Unset Printing Implicit Defensive.
Import GRing.Theory.
Local Open Scope ring_scope.

Section L.
Variable R : idomainType.
Notation O := (mc_ops R).
Variables (div : div_op O) (ffa : ffa_op O) (xgcd : R -> R -> R * R * R).
Hypothesis BZ : @bezout_laws R div ffa xgcd.
Variable pts : seq (R * R).
Notation x i := (nth (0, 0) pts i).1.
Notation y i := (nth (0, 0) pts i).2.
Notation n := (size pts).

Lemma vander_row_ok k (z : R) r (m : matrix (T O)) f : shape k k m f -> lt r k ->
  exists m', @vandermonde_row O z k r m = Some m' /\ shape k k m' (fun i j => if Nat.eqb i r then z ^+ j else f i j).
Proof.
  move=> Hm Hr. rewrite /vandermonde_row.
  case: (@forM_range _ (fun c s => let '(m, xp) := s in do m' <- put m r c xp; Some (m', @rmul O xp z))
    (fun c (s : matrix (T O) * R) => s.2 = z ^+ c /\ shape k k s.1 (fun i j => if Nat.eqb i r && Nat.ltb j c then z ^+ j else f i j)) 0%N k (m, (r1 : T O))).
  - exact: PeanoNat.Nat.le_0_l.
  - split; first by rewrite expr0. apply: shape_ext Hm _ => i j _ _. by rewrite andbF.
  - move=> c [m1 xp] Hc /= [E H]. case: (@put_shape _ k k m1 _ r c xp H Hr (proj2 Hc)) => m2 [-> H2] /=. eexists. split; first reflexivity. split.
    + by rewrite /= E plusE addn1 exprSr.
    + apply: shape_ext H2 _ => i j _ _. rewrite ltb_add1. case: (Nat.eqb_spec i r) => //= _. case: (Nat.ltb_spec j c) => //= Hj.
      * case: (Nat.eqb_spec j c) => //=. by move=> ->.
      * case: (Nat.eqb_spec j c) => //=. by move=> ->.
  - move=> [m1 xp] [-> [_ H]] /=. exists m1. split=> //. apply: shape_ext H _ => i j _ /Nat.ltb_lt ->. by rewrite andbT.
Qed.
Lemma vander_ok : exists m, (do m0 <- @zero O n n; forM (range 0 n) (fun r m => @vandermonde_row O (@fst_at O pts r) n r m) m0) = Some m /\
  represents m (\matrix_(i < n, j < n) x i ^+ j).
Proof.
  case: (zero_repr R n n) => m0 [-> /repr_shape H0] /=.
  case: (@forM_range _ (fun r m => @vandermonde_row O (@fst_at O pts r) n r m)
    (fun r m => shape n n m (fun i j => if Nat.ltb i r then x i ^+ j else mxf (0 : 'M[R]_n) i j)) 0%N n m0).
  - exact: PeanoNat.Nat.le_0_l.
  - by apply: shape_ext H0 _ => i j _ _.
  - move=> r m [_ Hr] H. case: (@vander_row_ok n (@fst_at O pts r) r m _ H Hr) => m' [-> H']. exists m'. split=> //.
    apply: shape_ext H' _ => i j _ _. rewrite ltb_add1 /fst_at nthE. case: (Nat.eqb_spec i r) => [->|_]; last by rewrite orbF.
    by rewrite orbT.
  - move=> m [-> H]. exists m. split=> //. apply: shape_reprE H _ => i j. rewrite mxE ltb_nat ltn_ord //.
Qed.
Lemma ycol_ok : exists m, (do y0 <- @zero O n 1; forM (range 0 n) (fun r m => put m r 0 (@snd_at O pts r)) y0) = Some m /\
  represents m (\col_i y i : 'cV[R]_n).
Proof.
  case: (zero_repr R n 1) => m0 [-> /repr_shape H0] /=.
  case: (@forM_range _ (fun r (m : matrix (T O)) => put m r 0 (@snd_at O pts r))
    (fun r m => shape n 1 m (fun i j => if Nat.ltb i r then y i else mxf (0 : 'cV[R]_n) i j)) 0%N n m0).
  - exact: PeanoNat.Nat.le_0_l.
  - by apply: shape_ext H0 _ => i j _ _.
  - move=> r m [_ Hr] H. case: (@put_shape _ n 1 m _ r 0 (@snd_at O pts r) H Hr) => [|m' [-> H']]; first exact: PeanoNat.Nat.lt_0_1.
    exists m'. split=> //. apply: shape_ext H' _ => i j _ Hj. rewrite ltb_add1 /snd_at nthE. have -> : j = 0%N by lia.
    case: (Nat.eqb_spec i r) => [->|_]; last by rewrite orbF. by rewrite orbT.
  - move=> m [-> H]. exists m. split=> //. apply: shape_reprE H _ => i j. rewrite mxE ltb_nat ltn_ord //.
Qed.
Lemma vander_eval (p : {poly R}) : (size p <= n)%N -> (\matrix_(i < n, j < n) x i ^+ j) *m (\col_(j < n) p`_j) = \col_(i < n) p.[x i].
Proof.
  move=> Hp. apply/colP => i. rewrite !mxE (horner_coef_wide _ Hp). apply: eq_bigr => j _. by rewrite !mxE mulrC.
Qed.
Theorem linear_system_ok : exists o, @interpolate_by_linear_system O div ffa xgcd pts = Some o /\
  match o with
  | Some p => size p = n /\ forall i, (i < n)%N -> (Poly p).[x i] = y i
  | None => forall f : {poly R}, exists2 i, (i < n)%N & f.[x i] <> y i
  end.
Proof.
  case: vander_ok => m [E1 H1]. case: ycol_ok => yv [E2 H2]. rewrite /interpolate_by_linear_system !lengthE.
  move: E1 E2. case: (zero n n) => //= m0 ->. cbn [obind]. case: (zero n 1) => //= y0 ->. cbn [obind].
  case: (col_solve_ok BZ H1 H2) => o [-> Ho]. cbn [obind]. case: o Ho => [v [X [HX EX]]|HN].
  - rewrite (@mapM_some _ _ _ (fun i => mxf X i 0%N)); last first.
    { move=> i /in_range [_ /ltP Hi]. have := repr_getE (Ordinal Hi) (0 : 'I_1) HX => /= ->. by rewrite -(mxfE X (Ordinal Hi) 0). }
    eexists. split; first reflexivity. have Hs : size (List.map (fun i : nat => mxf X i 0) (range 0 n)) = n by rewrite mapE size_map rangeE size_iota subn0.
    split=> // i Hi. set p := Poly _. have Hp : (size p <= n)%N by rewrite -[X in (_ <= X)%N]Hs; exact: size_Poly.
    have : (\col_(j < n) p`_j) = X.
    { apply/colP => j. rewrite mxE /p coef_Poly mapE rangeE (nth_map 0%N) ?size_iota ?subn0 // nth_iota ?subn0 // add0n. exact: (mxfE X j 0). }
    move=> EX'. have := vander_eval Hp. rewrite EX' EX => /colP /(_ (Ordinal Hi)). by rewrite !mxE.
  - exists None. split=> // f. case: (boolP [exists i : 'I_n, f.[x i] != y i]) => [/existsP[i /eqP Hi]|]; first by exists i.
    rewrite negb_exists => /forallP H. case: (@reduce_interp R pts f) => [i Hi|g [G1 G2]].
    { by have := H (Ordinal Hi); rewrite negbK => /eqP. }
    case: (HN (\col_j g`_j)). rewrite vander_eval //. apply/colP => i. by rewrite !mxE G2.
Qed.
End L.
