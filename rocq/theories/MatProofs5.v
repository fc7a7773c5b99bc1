(* Elementary operations act as multiplication by invertible matrices *)
From Coq Require Import NArith.
From mathcomp Require Import all_ssreflect all_algebra all_fingroup.
From Coq Require Import Lia.
From Verif Require Import RingSpec RingModel PermModel MatModel MatSpec MatProofs MatProofs2 MatProofs4.
Close Scope rs_scope.
Set Implicit Arguments.
Unset Strict Implicit.
Unset Printing Implicit Defensive.
Import GRing.Theory.
Local Open Scope ring_scope.

Section Elem.
Variable R : comRingType.
Notation O := (mc_ops R).
Notation mat := (matrix (T O)).

(* the matrix of (row i, row j) := (a row i + b row j, c row i + d row j) *)
Definition E2 n (i j : 'I_n) (a b c d : R) : 'M[R]_n :=
  \matrix_(r, k) if r == i then a *+ (k == i) + b *+ (k == j) else if r == j then c *+ (k == i) + d *+ (k == j) else (r == k)%:R.
Lemma sum_pick n (i : 'I_n) (a : R) (F : 'I_n -> R) : \sum_k (a *+ (k == i)) * F k = a * F i.
Proof.
  rewrite (bigD1 i) //= eqxx mulr1n big1 ?addr0 // => k /negbTE ->. by rewrite mulr0n mul0r.
Qed.
Lemma E2_mul n q (i j : 'I_n) a b c d (M : 'M[R]_(n,q)) r k : (E2 i j a b c d *m M) r k =
  if r == i then a * M i k + b * M j k else if r == j then c * M i k + d * M j k else M r k.
Proof.
  rewrite mxE. case: ifP => Hi; last case: ifP => Hj.
  - under eq_bigr do rewrite mxE Hi mulrDl. by rewrite big_split /= !(sum_pick _ _ (fun x => M x k)).
  - under eq_bigr do rewrite mxE Hi Hj mulrDl. by rewrite big_split /= !(sum_pick _ _ (fun x => M x k)).
  - under eq_bigr do rewrite mxE Hi Hj. rewrite (eq_bigr (fun x => ((1:R) *+ (x == r)) * M x k)); last by move=> x _; rewrite eq_sym.
    by rewrite (sum_pick _ _ (fun x => M x k)) mul1r.
Qed.
Lemma det_E2 n (i j : 'I_n) a b c d : i != j -> \det (E2 i j a b c d) = a * d - b * c.
Proof.
  move=> Hij. have Hji : j == i = false by rewrite eq_sym (negbTE Hij).
  have exp1 a' b' c' d' : \det (E2 i j a' b' c' d') = a' * \det (E2 i j 1 0 c' d') + b' * \det (E2 i j 0 1 c' d').
  { apply: (@determinant_multilinear _ _ _ _ _ i).
    - apply/rowP => k. rewrite !mxE !eqxx. rewrite !mul0rn addr0 add0r !mulr_natr. by [].
    - apply/matrixP => r k. rewrite !mxE. by rewrite -[lift i r == i](eq_sym i) (negbTE (neq_lift i r)).
    - apply/matrixP => r k. rewrite !mxE. by rewrite -[lift i r == i](eq_sym i) (negbTE (neq_lift i r)). }
  have exp2 a' b' c' d' : \det (E2 i j a' b' c' d') = c' * \det (E2 i j a' b' 1 0) + d' * \det (E2 i j a' b' 0 1).
  { apply: (@determinant_multilinear _ _ _ _ _ j).
    - apply/rowP => k. rewrite !mxE Hji !eqxx. rewrite !mul0rn addr0 add0r !mulr_natr. by [].
    - apply/matrixP => r k. rewrite !mxE. by rewrite -[lift j r == j](eq_sym j) (negbTE (neq_lift j r)).
    - apply/matrixP => r k. rewrite !mxE. by rewrite -[lift j r == j](eq_sym j) (negbTE (neq_lift j r)). }
  have same x y : \det (E2 i j x y x y) = 0.
  { apply: (determinant_alternate Hij) => k. by rewrite !mxE Hji !eqxx. }
  have id1 : \det (E2 i j 1 0 0 1) = 1.
  { rewrite (_ : E2 i j 1 0 0 1 = 1%:M) ?det1 //. apply/matrixP => r k. rewrite !mxE !mul0rn addr0 add0r.
    case: eqP => [->|_]; first by rewrite eq_sym. case: eqP => [->|_] //. by rewrite eq_sym. }
  have sw : \det (E2 i j 0 1 1 0) = -1.
  { have := same 1 1. rewrite exp1 !(exp2 _ _ 1 1) !mul1r !same id1 add0r addr0 => /eqP. by rewrite addrC addr_eq0 => /eqP. }
  rewrite exp1 !(exp2 _ _ c d) !same id1 sw. by rewrite !mulr0 !mulr1 add0r addr0 mulrN1 mulrN.
Qed.
(* scaling of one row *)
Definition E1 n (i : 'I_n) (u : R) : 'M[R]_n := \matrix_(r, k) ((if r == i then u else 1) *+ (r == k)).
Lemma E1_mul n q (i : 'I_n) u (M : 'M[R]_(n,q)) r k : (E1 i u *m M) r k = if r == i then M r k * u else M r k.
Proof.
  rewrite mxE (eq_bigr (fun x => ((if r == i then u else 1) *+ (x == r)) * M x k)); last by move=> x _; rewrite mxE [x == r]eq_sym.
  rewrite (sum_pick _ _ (fun x => M x k)). case: ifP => _; by rewrite ?mul1r // mulrC.
Qed.
Lemma det_E1 n (i : 'I_n) u : \det (E1 i u) = u.
Proof.
  rewrite (@determinant_multilinear _ _ (E1 i u) 1%:M 1%:M i u 0).
  - by rewrite det1 mulr1 mul0r addr0.
  - apply/rowP => k. rewrite !mxE eqxx mul0r addr0. by rewrite mulr_natr.
  - apply/matrixP => r k. rewrite !mxE. by rewrite -[lift i r == i](eq_sym i) (negbTE (neq_lift i r)).
  - apply/matrixP => r k. rewrite !mxE. by rewrite -[lift i r == i](eq_sym i) (negbTE (neq_lift i r)).
Qed.

(* ---- the loops *)
Lemma loop_two p q (m : mat) (f : nat -> nat -> R) i j (F G : R -> R -> R) (body : nat -> mat -> option mat) :
  shape p q m f -> lt i p -> lt j p -> i <> j ->
  (forall c m' h, lt c q -> shape p q m' h -> exists m'', body c m' = Some m'' /\
      shape p q m'' (fun r k => if Nat.eqb k c then (if Nat.eqb r i then F (h i c) (h j c) else if Nat.eqb r j then G (h i c) (h j c) else h r k) else h r k)) ->
  exists m', forM (range 0 q) body m = Some m' /\
    shape p q m' (fun r k => if Nat.eqb r i then F (f i k) (f j k) else if Nat.eqb r j then G (f i k) (f j k) else f r k).
Proof.
  move=> S Hi Hj Hij Hb.
  pose new r k := if Nat.eqb r i then F (f i k) (f j k) else if Nat.eqb r j then G (f i k) (f j k) else f r k.
  case: (@forM_range mat body (fun c m => shape p q m (fun r k => if Nat.ltb k c then new r k else f r k)) 0 q m).
  - lia.
  - exact: S.
  - move=> c m1 [_ Hc] S1. case: (Hb c m1 _ Hc S1) => m2 [E2 S2]. exists m2. split=> //.
    apply: (shape_ext _ _ _ _ _ S2) => r k Hr Hk. rewrite PeanoNat.Nat.ltb_irrefl ltb_add1.
    case: (PeanoNat.Nat.eqb_spec k c) => [->|Hkc]; last by rewrite orbF.
    rewrite orbT /new PeanoNat.Nat.ltb_irrefl. by [].
  - move=> m' [E S']. exists m'. split=> //. apply: (shape_ext _ _ _ _ _ S') => r k Hr Hk.
    by rewrite (proj2 (PeanoNat.Nat.ltb_lt k q) Hk).
Qed.

(* two writes in the same column *)
Lemma put_two p q (m : mat) h i j c x y : shape p q m h -> lt i p -> lt j p -> i <> j -> lt c q ->
  exists m', (do m1 <- put m i c x; put m1 j c y) = Some m' /\
    shape p q m' (fun r k => if Nat.eqb k c then (if Nat.eqb r i then x else if Nat.eqb r j then y else h r k) else h r k).
Proof.
  move=> S Hi Hj Hij Hc. case: (put_shape p q m h i c x S Hi Hc) => m1 [-> S1].
  case: (put_shape p q m1 _ j c y S1 Hj Hc) => m2 [E S2]. exists m2. split=> //.
  apply: (shape_ext _ _ _ _ _ S2) => r k _ _. rewrite !eqb_nat.
  case: (r =P j) => [->|_]; case: (k =P c) => [->|_] //=; rewrite ?andbF ?andbT //.
  by case: (j =P i) => // E'; case: Hij.
Qed.
Lemma put_one p q (m : mat) h i c x : shape p q m h -> lt i p -> lt c q ->
  exists m', put m i c x = Some m' /\ shape p q m' (fun r k => if Nat.eqb k c then (if Nat.eqb r i then x else h r k) else h r k).
Proof.
  move=> S Hi Hc. case: (put_shape p q m h i c x S Hi Hc) => m1 [-> S1]. exists m1. split=> //.
  apply: (shape_ext _ _ _ _ _ S1) => r k _ _. by case: Nat.eqb; case: Nat.eqb.
Qed.

(* mathematical action of an operation on rows *)
Definition opmx n (o : @opp_type O) : 'M[R]_n :=
  match o with
  | Swap i j => match insub i, insub j with Some i', Some j' => E2 i' j' 0 1 1 0 | _, _ => 1%:M end
  | UnitMul i u => match insub i with Some i' => E1 i' u | _ => 1%:M end
  | AddRowMul i j x => match insub i, insub j with Some i', Some j' => E2 i' j' 1 x 0 1 | _, _ => 1%:M end
  | TwoInv i j a b c d => match insub i, insub j with Some i', Some j' => E2 i' j' a b c d | _, _ => 1%:M end
  end.
Definition op_in (n : nat) (o : @opp_type O) : Prop :=
  match o with
  | Swap i j | AddRowMul i j _ | TwoInv i j _ _ _ _ => [/\ (i < n)%N, (j < n)%N & i <> j]
  | UnitMul i _ => (i < n)%N
  end.
Lemma det_opmx n o : op_in n o -> \det (opmx n o) = @opp_det O (row_opp o).
Proof.
  case: o => [i j|i u|i j x|i j a b c d] /=.
  - move=> [Hi Hj Hij]. rewrite !insubT det_E2; last by apply/eqP => -[]. by rewrite mul0r mul1r sub0r.
  - move=> Hi. by rewrite insubT det_E1.
  - move=> [Hi Hj Hij]. rewrite !insubT det_E2; last by apply/eqP => -[]. by rewrite mulr0 subr0 mulr1.
  - move=> [Hi Hj Hij]. by rewrite !insubT det_E2; last by apply/eqP => -[].
Qed.
Lemma eqb_ord n (i j : 'I_n) : Nat.eqb i j = (i == j). Proof. by rewrite eqb_nat. Qed.
Lemma opp_body_repr p q (m : mat) (M : 'M[R]_(p,q)) o : represents m M -> op_in p o ->
  exists m', opp_body o m = Some m' /\ represents m' (opmx p o *m M).
Proof.
  move=> Hm. have S := repr_shape Hm. case: o => [i j|i u|i j x|i j a b c d] /=.
  - move=> [Hi Hj Hij]. rewrite (repr_cols Hm). have Hi' := ltP Hi. have Hj' := ltP Hj.
    case: (@loop_two p q m (mxf M) i j (fun x y => y) (fun x y => x) (fun col m => do tmp <- get m i col; do y <- get m j col; do m1 <- put m i col y; put m1 j col tmp) S) => //.
    + move=> c m' h Hc S'. have [_ [_ G]] := S'. rewrite !G //=. exact: put_two.
    + move=> m' [-> S']. exists m'. split=> //. apply: shape_reprE S' _ => r k. rewrite !insubT E2_mul.
      rewrite -(mxfE M _ k) -(mxfE M (Sub j Hj) k) -(mxfE M r k) !mul1r !mul0r add0r addr0 /= !eqb_nat. by [].
  - move=> Hi. rewrite (repr_cols Hm). have Hi' := ltP Hi.
    case: (@forM_range mat (fun col m => do y <- get m i col; put m i col (y * u))
        (fun c m => shape p q m (fun r k => if Nat.ltb k c && Nat.eqb r i then mxf M r k * u else mxf M r k)) 0 q m).
    + lia.
    + exact: S.
    + move=> c m1 [_ Hc] S1. have [_ [_ G]] := S1. rewrite (G i c Hi' Hc) PeanoNat.Nat.ltb_irrefl /=.
      case: (put_one (mxf M i c * u) S1 Hi' Hc) => m2 [E S2]. exists m2. split=> //.
      apply: (shape_ext _ _ _ _ _ S2) => r k _ _. rewrite ltb_add1 !eqb_nat !ltb_nat.
      case: (r =P i) => [->|_]; case: (k =P c) => [->|_] /=; rewrite ?andbT ?andbF ?orbT ?orbF //.
    + move=> m' [-> S']. exists m'. split=> //. apply: shape_reprE S' _ => r k. rewrite !insubT E1_mul.
      by rewrite (proj2 (PeanoNat.Nat.ltb_lt k q) (ltP (ltn_ord k))) /= !mxfE eqb_nat.
  - move=> [Hi Hj Hij]. rewrite (repr_cols Hm). have Hi' := ltP Hi. have Hj' := ltP Hj.
    case: (@loop_two p q m (mxf M) i j (fun z y => z + y * x) (fun z y => y) (fun col m => do y <- get m j col; do z <- get m i col; put m i col (z + y * x)) S) => //.
    + move=> c m' h Hc S'. have [_ [_ G]] := S'. rewrite !G //=. case: (put_one (h i c + h j c * x) S' Hi' Hc) => m2 [-> S2]. exists m2. split=> //.
      apply: (shape_ext _ _ _ _ _ S2) => r k _ _. rewrite !eqb_nat. case: (k =P c) => // ->. case: (r == i) => //. by case: (r =P j) => // ->.
    + move=> m' [-> S']. exists m'. split=> //. apply: shape_reprE S' _ => r k. rewrite !insubT E2_mul.
      rewrite -(mxfE M _ k) -(mxfE M (Sub j Hj) k) -(mxfE M r k) !mul1r !mul0r add0r /= !eqb_nat. by rewrite (mulrC x).
  - move=> [Hi Hj Hij]. rewrite (repr_cols Hm). have Hi' := ltP Hi. have Hj' := ltP Hj.
    case: (@loop_two p q m (mxf M) i j (fun x y => a * x + b * y) (fun x y => c * x + d * y)
       (fun col m => do mi <- get m i col; do mj <- get m j col; do m1 <- put m i col (a * mi + b * mj); put m1 j col (c * mi + d * mj)) S) => //.
    + move=> e m' h Hc S'. have [_ [_ G]] := S'. rewrite !G //=. exact: put_two.
    + move=> m' [-> S']. exists m'. split=> //. apply: shape_reprE S' _ => r k. rewrite !insubT E2_mul.
      by rewrite -(mxfE M _ k) -(mxfE M (Sub j Hj) k) -(mxfE M r k) /= !eqb_nat.
Qed.
Lemma det2_repr (a b c d : R) : unwrap (@det_naive O (Mat 2 2 false false false [:: a; b; c; d])) = Some (a * d - b * c).
Proof.
  pose M : 'M[R]_2 := \matrix_(i, j) nth 0 [:: a; b; c; d] (j + i * 2).
  have H : represents (Mat 2 2 false false false [:: a; b; c; d] : mat) M.
  { apply/repr_get. do !split=> //. move=> [i Hi] [j Hj]. rewrite mxE /=. case: i Hi => [|[|i]] // _; case: j Hj => [|[|j]] //. }
  rewrite (det_naive_repr H) /= (expand_det_row _ ord0) !big_ord_recl big_ord0 addr0 /cofactor.
  by rewrite !det_mx11 !mxE /= /bump /= !addn0 expr0 mul1r expr1 mulN1r mulrN.
Qed.
End Elem.

Section Apply.
Variable R : idomainType.
Notation O := (mc_ops R).
Notation mat := (matrix (T O)).
Variable div : div_op O.
Hypothesis Hdiv : idom_laws O div.

Lemma is_unitE (x : R) : is_unit div x = (x \is a GRing.unit).
Proof.
  rewrite /is_unit. case E: (div 1 x) => [q| |].
  - have := div_ok _ _ Hdiv _ _ _ E => /= /eqP E'. apply/esym/unitrPr. exists q. by rewrite mulrC.
  - have /= /eqP := proj1 (div_zero _ _ Hdiv 1 x) E => ->. by rewrite unitr0.
  - have H := div_not _ _ Hdiv _ _ E. apply/esym/negP => /unitrPr [y Hy]. apply: H. exists y. rewrite /= Hy. exact: eqxx.
Qed.
Lemma div_total (a b q : R) : b != 0 -> a = q * b -> exists q', div a b = DivOk q' /\ q' = q.
Proof.
  move=> Hb Ha. case E: (div a b) => [q'| |].
  - exists q'. split=> //. have /= /eqP := div_ok _ _ Hdiv _ _ _ E. by rewrite Ha => /(mulIf Hb).
  - have /= := proj1 (div_zero _ _ Hdiv a b) E. by rewrite (negbTE Hb).
  - case: (div_not _ _ Hdiv _ _ E). exists q. apply/eqP. by rewrite Ha mulrC.
Qed.
Definition op_ok (n : nat) (o : @opp_type O) : Prop := op_in n o /\ (@opp_det O (row_opp o) : R) \is a GRing.unit.
Lemma opp_check_ok n b o : op_ok n o -> opp_check div (b, o) = Some true.
Proof.
  case: o => [i j|i u|i j x|i j a b' c d] [H Hu]; rewrite /opp_check [snd _]/=.
  - by move: H => [_ _ /eqP H]; rewrite eqb_nat H.
  - have E := is_unitE u. by congr Some; rewrite E.
  - by move: H => [_ _ /eqP H]; rewrite eqb_nat H.
  - move: H => [_ _ /eqP H]. rewrite eqb_nat (negbTE H). have E := is_unitE (a * d - b' * c).
    have E2' := det2_repr (a : R) b' c d. rewrite E2' /obind. congr Some. rewrite E. exact: Hu.
Qed.
Lemma opp_apply_row p q (m : mat) (M : 'M[R]_(p,q)) o : represents m M -> op_ok p o ->
  exists m', opp_apply div (row_opp o) m = Some m' /\ represents m' (opmx p o *m M).
Proof.
  move=> Hm Ho. rewrite /opp_apply (opp_check_ok _ Ho) /=. exact: opp_body_repr Hm (proj1 Ho).
Qed.
Lemma opp_apply_col p q (m : mat) (M : 'M[R]_(p,q)) o : represents m M -> op_ok q o ->
  exists m', opp_apply div (col_opp o) m = Some m' /\ represents m' (M *m (opmx q o)^T).
Proof.
  move=> Hm Ho. rewrite /opp_apply (opp_check_ok _ Ho) /=. case: (opp_body_repr (repr_tr Hm) (proj1 Ho)) => m' [-> H'] /=.
  exists (transpose m'). split=> //. by move: (repr_tr H'); rewrite trmx_mul trmxK.
Qed.
Lemma opmx_unit n o : op_ok n o -> opmx n o \in unitmx.
Proof. move=> [H1 H2]. by rewrite unitmxE det_opmx. Qed.
End Apply.
