(* The matrix operations of the model compute the mathcomp matrix operations. *)
From Coq Require Import NArith.
From mathcomp Require Import all_ssreflect all_algebra.
From Coq Require Import Lia.
From Verif Require Import RingSpec RingModel PermModel MatModel MatSpec MatProofs.
Close Scope rs_scope.
Set Implicit Arguments.
Unset Strict Implicit.
Unset Printing Implicit Defensive.
Import GRing.Theory.
Local Open Scope ring_scope.

Section Repr.
Variable A : Type.
Lemma repr_get p q (m : matrix A) M : represents m M <-> rows m = p /\ cols m = q /\ forall (i : 'I_p) (j : 'I_q), get m i j = Some (M i j).
Proof.
  split=> [[H1 [H2 H3]]|[H1 [H2 H3]]]; do !split=> //.
  - by move=> i j; apply/get_at; apply: H3.
  - by move=> i j; apply/get_at; apply: H3.
Qed.
Lemma repr_rows p q (m : matrix A) (M : 'M_(p,q)) : represents m M -> rows m = p. Proof. by case. Qed.
Lemma repr_cols p q (m : matrix A) (M : 'M_(p,q)) : represents m M -> cols m = q. Proof. by case=> _ []. Qed.
Lemma repr_getE p q (m : matrix A) (M : 'M_(p,q)) i j : represents m M -> get m (nat_of_ord i) (nat_of_ord j) = Some (M i j).
Proof. by move/repr_get => [_ [_]]. Qed.
Lemma repr_inj p q (m : matrix A) (M M' : 'M_(p,q)) : represents m M -> represents m M' -> M = M'.
Proof.
  move=> /repr_get [_ [_ H]] /repr_get [_ [_ H']]. apply/matrixP=> i j. by have := H i j; rewrite H' => -[].
Qed.
Lemma repr_tr p q (m : matrix A) (M : 'M_(p,q)) : represents m M -> represents (transpose m) M^T.
Proof.
  move=> H. apply/repr_get. rewrite rows_transpose cols_transpose (repr_rows H) (repr_cols H). do !split=> //.
  by move=> i j; rewrite get_transpose (repr_getE _ _ H) mxE.
Qed.
Lemma shape_repr p q (m : matrix A) f : shape p q m f -> represents m (\matrix_(i < p, j < q) f i j).
Proof.
  move=> [H1 [H2 H3]]. apply/repr_get. do !split=> //. move=> i j; rewrite mxE. by apply: H3; apply/ltP.
Qed.
Lemma shape_reprE p q (m : matrix A) f (M : 'M_(p,q)) : shape p q m f -> (forall i j, f (nat_of_ord i) (nat_of_ord j) = M i j) -> represents m M.
Proof. move=> /shape_repr H E. have -> // : M = \matrix_(i, j) f i j. by apply/matrixP=> i j; rewrite mxE. Qed.
End Repr.
Lemma repr_apply_map A B p q (m : matrix A) (M : 'M[A]_(p,q)) (g : A -> B) : represents m M -> represents (apply_map g m) (map_mx g M).
Proof.
  move=> H. apply/repr_get. do !split; [exact: (repr_rows H)|exact: (repr_cols H)|]. move=> i j.
  have S : shape p q m (fun r c => if (insub r, insub c) is (Some i', Some j') then M i' j' else M i j).
  { split; [exact: (repr_rows H)|]. split; [exact: (repr_cols H)|]. move=> r c /ltP Hr /ltP Hc. rewrite !insubT /=.
    exact: (repr_getE (Ordinal Hr) (Ordinal Hc) H). }
  have [_ [_ ->]] := apply_map_shape p q m _ g S; try by apply/ltP. by rewrite !valK mxE.
Qed.

Section Fun.
Variable R : zmodType.
Definition mxf p q (M : 'M[R]_(p,q)) (r c : nat) : R :=
  if insub r is Some i then if insub c is Some j then M i j else 0 else 0.
Lemma mxfE p q (M : 'M[R]_(p,q)) (i : 'I_p) (j : 'I_q) : mxf M i j = M i j. Proof. by rewrite /mxf !valK. Qed.
Lemma repr_shape p q (m : matrix R) (M : 'M[R]_(p,q)) : represents m M -> shape p q m (mxf M).
Proof.
  move=> H; split; [exact: (repr_rows H)|]. split; [exact: (repr_cols H)|]. move=> r c /ltP Hr /ltP Hc.
  by rewrite -[r]/(nat_of_ord (Ordinal Hr)) -[c]/(nat_of_ord (Ordinal Hc)) mxfE (repr_getE _ _ H).
Qed.
End Fun.

(* ------------------------------------------------------------------ arithmetic over a commutative ring *)
Section Arith.
Variable R : comRingType.
Notation O := (mc_ops R).
Notation mat := (matrix (T O)).
Implicit Types m a b : mat.

Lemma upd_loop_rc p q (m : mat) (M : 'M[R]_(p,q)) (g : nat -> nat -> R -> option R) (N : 'M[R]_(p,q)) :
  represents m M -> (forall i j, g (nat_of_ord i) (nat_of_ord j) (M i j) = Some (N i j)) ->
  exists m', forM (range 0 p) (fun r a => forM (range 0 q) (fun c a => do x <- get a r c; do y <- g r c x; put a r c y) a) m = Some m' /\ represents m' N.
Proof.
  move=> H Hg. have S := repr_shape H.
  case: (@loop_rc R p q m (mxf M) (mxf N) (fun r c a => do x <- get a r c; do y <- g r c x; put a r c y) S).
  - move=> r c m' h Hr Hc S' E. have G := proj2 (proj2 S') r c Hr Hc. rewrite G /= E.
    move: (Hr) (Hc) => /ltP Hr' /ltP Hc'.
    have := Hg (Ordinal Hr') (Ordinal Hc'). rewrite -!mxfE /= => -> /=.
    exact: (@put_shape R p q m' h r c _ S' Hr Hc).
  - move=> m' [-> H']. exists m'; split=> //. apply: shape_reprE H' _ => i j. by rewrite mxfE.
Qed.
Lemma upd_loop_cr p q (m : mat) (M : 'M[R]_(p,q)) (g : nat -> nat -> R -> option R) (N : 'M[R]_(p,q)) :
  represents m M -> (forall i j, g (nat_of_ord i) (nat_of_ord j) (M i j) = Some (N i j)) ->
  exists m', forM (range 0 q) (fun c a => forM (range 0 p) (fun r a => do x <- get a r c; do y <- g r c x; put a r c y) a) m = Some m' /\ represents m' N.
Proof.
  move=> H Hg. have S := repr_shape H.
  case: (@loop_cr R p q m (mxf M) (mxf N) (fun r c a => do x <- get a r c; do y <- g r c x; put a r c y) S).
  - move=> r c m' h Hr Hc S' E. have G := proj2 (proj2 S') r c Hr Hc. rewrite G /= E.
    move: (Hr) (Hc) => /ltP Hr' /ltP Hc'.
    have := Hg (Ordinal Hr') (Ordinal Hc'). rewrite -!mxfE /= => -> /=.
    exact: (@put_shape R p q m' h r c _ S' Hr Hc).
  - move=> m' [-> H']. exists m'; split=> //. apply: shape_reprE H' _ => i j. by rewrite mxfE.
Qed.

Lemma construct_repr p q (mk : nat -> nat -> option R) (M : 'M[R]_(p,q)) :
  (forall i j, mk (nat_of_ord i) (nat_of_ord j) = Some (M i j)) -> exists m, construct p q mk = Some m /\ represents m M.
Proof.
  move=> H. case: (@construct_shape R p q mk (mxf M)).
  - move=> r c /ltP Hr /ltP Hc. by have := H (Ordinal Hr) (Ordinal Hc); rewrite -mxfE.
  - move=> m [-> [S _]]. exists m; split=> //. apply: shape_reprE S _ => i j. by rewrite mxfE.
Qed.
Lemma zero_repr p q : exists m, @zero O p q = Some m /\ represents m (0 : 'M[R]_(p,q)).
Proof. by apply: construct_repr => i j; rewrite mxE. Qed.
Lemma eqb_nat (a b : nat) : Nat.eqb a b = (a == b). Proof. by case: (PeanoNat.Nat.eqb_spec a b) => [->|/eqP/negbTE ->]; rewrite ?eqxx. Qed.
Lemma leb_nat (a b : nat) : Nat.leb a b = (a <= b)%N. Proof. by apply/idP/idP => [/PeanoNat.Nat.leb_le/leP|/leP/PeanoNat.Nat.leb_le]. Qed.
Lemma ltb_nat (a b : nat) : Nat.ltb a b = (a < b)%N. Proof. exact: leb_nat. Qed.
Lemma ident_repr n : exists m, @ident O n = Some m /\ represents m (1%:M : 'M[R]_n).
Proof. apply: construct_repr => i j. rewrite mxE eqb_nat /=. by case: eqP => [/val_inj ->|E]; rewrite ?eqxx //; case: eqP E => // ->. Qed.
Lemma diag_repr (d : list R) : exists m, @diag O d = Some m /\ represents m (\matrix_(i < length d, j < length d) (nth 0 d i *+ (i == j))).
Proof.
  apply: construct_repr => i j. rewrite mxE eqb_nat. case: eqP => [/val_inj ->|E].
  - rewrite eqxx mulr1n /=. elim: d {i} j => [[]|x d IH [[|j] Hj]] //=. exact: (IH (Ordinal (Hj : j < length d)%N)).
  - by case: eqP E => // ->.
Qed.

(* `do y <- g x; put m r c y` with a total g *)
Lemma add_repr p q a b (A B : 'M[R]_(p,q)) : represents a A -> represents b B ->
  exists c, add a b = Some (Ok c) /\ represents c (A + B).
Proof.
  move=> Ha Hb. rewrite /add /add_mut (repr_rows Ha) (repr_cols Ha) (repr_rows Hb) (repr_cols Hb) !PeanoNat.Nat.eqb_refl /=.
  case: (@upd_loop_cr p q a A (fun r c x => do y <- get b r c; Some (x + y)) (A + B) Ha).
  - by move=> i j; rewrite (repr_getE _ _ Hb) /= mxE.
  - move=> c [E Hc]. exists c; split=> //. rewrite (_ : forM _ _ _ = Some c) // -E.
    apply: forM_ext => c0 s _. apply: forM_ext => r s' _. case: (get s' r c0) => //= x. by case: (get b r c0).
Qed.
Lemma add_err a b : (rows a, cols a) <> (rows b, cols b) -> add a b = Some (Err DimMissmatch).
Proof.
  move=> H. rewrite /add /add_mut !eqb_nat -negb_and. case: andP => //= -[/eqP E1 /eqP E2]. by case: H; rewrite E1 E2.
Qed.
Lemma neg_repr p q a (A : 'M[R]_(p,q)) : represents a A -> exists c, neg a = Some c /\ represents c (- A).
Proof.
  move=> Ha. rewrite /neg (repr_rows Ha) (repr_cols Ha).
  case: (@upd_loop_rc p q a A (fun r c x => Some (- x)) (- A) Ha).
  - by move=> i j; rewrite mxE.
  - by move=> c [E Hc]; exists c.
Qed.
Lemma mul_scalar_repr p q a (A : 'M[R]_(p,q)) (x : R) : represents a A -> exists c, mul_scalar a x = Some c /\ represents c (x *: A).
Proof.
  move=> Ha. rewrite /mul_scalar (repr_rows Ha) (repr_cols Ha).
  case: (@upd_loop_rc p q a A (fun r c y => Some (y * x)) (x *: A) Ha).
  - by move=> i j; rewrite mxE mulrC.
  - by move=> c [E Hc]; exists c.
Qed.
Lemma mul_repr p k q a b (A : 'M[R]_(p,k)) (B : 'M[R]_(k,q)) : represents a A -> represents b B ->
  exists c, mul a b = Some (Ok c) /\ represents c (A *m B).
Proof.
  move=> Ha Hb. rewrite /mul (repr_rows Ha) (repr_cols Ha) (repr_rows Hb) (repr_cols Hb) PeanoNat.Nat.eqb_refl.
  case: (zero_repr p q) => s0 [E0 H0]. rewrite E0 [negb _]/= [obind (Some s0) _]/=. have S0 := repr_shape H0.
  pose g r c := \sum_(0 <= i < k) mxf A r i * mxf B i c.
  case: (@loop_rc R p q s0 (fun _ _ => 0) g (fun r c s => forM (range 0 k) (fun l s =>
               do x <- get a r l; do y <- get b l c; do t <- get s r c; put s r c (t + x * y)) s)).
  - apply: (shape_ext _ _ _ _ _ S0) => r c Hr Hc. rewrite /mxf. by case: insub => // i; case: insub => // j; rewrite mxE.
  - move=> r c s h Hr Hc Sh E.
    case: (@forM_range mat (fun l s => do x <- get a r l; do y <- get b l c; do t <- get s r c; put s r c (t + x * y))
       (fun n s => shape p q s (fun i j => if Nat.eqb i r && Nat.eqb j c then \sum_(0 <= i < n) mxf A r i * mxf B i c else h i j)) 0 k s).
    + lia.
    + apply: (shape_ext _ _ _ _ _ Sh) => i j _ _. rewrite big_geq //. rewrite !eqb_nat. by case: eqP => // ->; case: eqP => // ->.
    + move=> n s1 [_ Hn] Ss.
      have [_ [_ Ga]] := repr_shape Ha. have [_ [_ Gb]] := repr_shape Hb. rewrite (Ga r n Hr Hn) (Gb n c Hn Hc) /=.
      have [_ [_ Gs]] := Ss. rewrite (Gs r c Hr Hc) /= !eqb_nat !eqxx /=.
      case: (@put_shape _ p q s1 _ r c (\sum_(0 <= i < n) mxf A r i * mxf B i c + mxf A r n * mxf B n c) Ss Hr Hc) => s2 [E2 S2].
      exists s2. split=> //. apply: (shape_ext _ _ _ _ _ S2) => i j _ _. case: (_ && _) => //.
      by rewrite PeanoNat.Nat.add_1_r big_nat_recr.
    + move=> s2 [E2 S2]. exists s2. split=> //.
  - move=> s1 [E1 S1]. exists s1. split; first by rewrite E1.
    apply: shape_reprE S1 _ => i j. rewrite mxE /g big_mkord. by apply: eq_bigr => l _; rewrite !mxfE.
Qed.
Lemma mul_err a b : cols a <> rows b -> mul a b = Some (Err DimMissmatch).
Proof. by move=> /eqP H; rewrite /mul eqb_nat (negbTE H). Qed.


Lemma in_rangeP (a b i : nat) : reflect (List.In i (range a b)) (a <= i < b)%N.
Proof.
  apply: (iffP andP) => [[/leP H1 /ltP H2]|/in_range [/leP H1 /ltP H2]] //. by apply/in_range.
Qed.
Lemma forall_range n (P : pred nat) : List.forallb P (range 0 n) = [forall i : 'I_n, P i].
Proof.
  apply/idP/forallP => [/List.forallb_forall H i|H]; first by apply: H; apply/in_rangeP => /=.
  apply/List.forallb_forall => i /in_rangeP /= Hi. exact: (H (Ordinal Hi)).
Qed.
Lemma equal_repr p q a b (A B : 'M[R]_(p,q)) : represents a A -> represents b B -> @equal O a b = Some (A == B).
Proof.
  move=> Ha Hb. rewrite /equal (repr_rows Ha) (repr_cols Ha) (repr_rows Hb) (repr_cols Hb) !PeanoNat.Nat.eqb_refl.
  rewrite [negb _]/=. have [_ [_ Ga]] := repr_shape Ha; have [_ [_ Gb]] := repr_shape Hb.
  rewrite (allM_spec _ _ (fun c => List.forallb (fun r => mxf A r c == mxf B r c) (range 0 p))).
  - congr Some. rewrite forall_range. apply/forallP/eqP.
    + move=> H. apply/matrixP=> i j. have := H j. rewrite forall_range => /forallP /(_ i). by rewrite !mxfE => /eqP.
    + move=> -> j. rewrite forall_range. by apply/forallP.
  - move=> c /in_rangeP /= /ltP Hc. apply: allM_spec => r /in_rangeP /= /ltP Hr. by rewrite Ga // Gb.
Qed.
Lemma equal_dims a b : (rows a, cols a) <> (rows b, cols b) -> @equal O a b = Some false.
Proof.
  move=> H. rewrite /equal !eqb_nat. case: eqP => //= E1. case: eqP => //= E2. by case: H; rewrite E1 E2.
Qed.
Lemma range_succ n : range 0 n.+1 = List.app (range 0 n) (List.cons n List.nil).
Proof. by rewrite /range PeanoNat.Nat.sub_0_r List.seq_S PeanoNat.Nat.sub_0_r. Qed.
Lemma forM_app S l1 l2 (f : nat -> S -> option S) s : forM (List.app l1 l2) f s = obind (forM l1 f s) (forM l2 f).
Proof. elim: l1 s => [|i l1 IH] s //=. by case: (f i s) => //=. Qed.

(* summing loops *)
Lemma sum_loop n (f : nat -> R) (t : nat -> option R) (x0 : R) : (forall i, (i < n)%N -> t i = Some (f i)) ->
  forM (range 0 n) (fun i acc => do x <- t i; Some (acc + x)) x0 = Some (x0 + \sum_(0 <= i < n) f i).
Proof.
  move=> H. suff : forall k, (k <= n)%N -> forM (range 0 k) (fun i acc => do x <- t i; Some (acc + x)) x0 = Some (x0 + \sum_(0 <= i < k) f i) by exact.
  elim=> [|k IH] Hk; first by rewrite big_geq // addr0.
  rewrite range_succ forM_app IH; last by apply: ltnW. rewrite /= H //= big_nat_recr //= addrA. by [].
Qed.
Lemma prod_loop n (f : nat -> R) (t : nat -> option R) (x0 : R) : (forall i, (i < n)%N -> t i = Some (f i)) ->
  forM (range 0 n) (fun i acc => do x <- t i; Some (acc * x)) x0 = Some (x0 * \prod_(0 <= i < n) f i).
Proof.
  move=> H. suff : forall k, (k <= n)%N -> forM (range 0 k) (fun i acc => do x <- t i; Some (acc * x)) x0 = Some (x0 * \prod_(0 <= i < k) f i) by exact.
  elim=> [|k IH] Hk; first by rewrite big_geq // mulr1.
  rewrite range_succ forM_app IH; last by apply: ltnW. rewrite /= H //= big_nat_recr //= mulrA. by [].
Qed.
Lemma dot_repr p q a b (A B : 'M[R]_(p,q)) : represents a A -> represents b B ->
  @dot O a b = Some (\sum_i \sum_j A i j * B i j).
Proof.
  move=> Ha Hb. rewrite /dot (repr_rows Ha) (repr_cols Ha) (repr_rows Hb) (repr_cols Hb) !PeanoNat.Nat.eqb_refl.
  have [_ [_ Ga]] := repr_shape Ha; have [_ [_ Gb]] := repr_shape Hb.
  pose f r := \sum_(0 <= c < q) mxf A r c * mxf B r c.
  rewrite (_ : forM _ _ _ = Some (0 + \sum_(0 <= r < p) f r)).
  - congr Some. rewrite add0r big_mkord. apply: eq_bigr => i _. rewrite /f big_mkord. by apply: eq_bigr => j _; rewrite !mxfE.
  - rewrite -(@sum_loop p f (fun r => Some (f r)) 0) //. apply: forM_ext => r s /in_rangeP /= /ltP Hr.
    rewrite -(@sum_loop q (fun c => mxf A r c * mxf B r c) (fun c => do x <- get a r c; do y <- get b r c; Some (x * y)) s).
    + apply: forM_ext => c t /in_rangeP /= /ltP Hc. by rewrite Ga // Gb.
    + by move=> c /ltP Hc; rewrite Ga // Gb.
Qed.
Lemma square_dims (m : mat) : Nat.eqb (dim1 m) (dim2 m) = (rows m == cols m).
Proof. by rewrite /rows /cols eqb_nat; case: (tr m) => //; rewrite eq_sym. Qed.
Lemma square_dim1 n (m : mat) : rows m = n -> cols m = n -> dim1 m = n.
Proof. by rewrite /rows /cols; case: (tr m). Qed.
Lemma mapM_range (X : Type) n (f : nat -> X) (t : nat -> option X) : (forall i, (i < n)%N -> t i = Some (f i)) ->
  mapM t (range 0 n) = Some (List.map f (range 0 n)).
Proof. move=> H. apply: mapM_some => i /in_rangeP /=. exact: H. Qed.
Lemma fold_add_map n (f : nat -> R) : List.fold_left (@radd O) (List.map f (range 0 n)) 0 = \sum_(0 <= i < n) f i.
Proof.
  elim: n => [|n IH]; first by rewrite big_geq. by rewrite range_succ List.map_app List.fold_left_app IH big_nat_recr.
Qed.
Lemma trace_repr n a (A : 'M[R]_n) : represents a A -> @trace O a = Some (Ok (\tr A)).
Proof.
  move=> Ha. rewrite /trace square_dims (repr_rows Ha) (repr_cols Ha) eqxx /= (square_dim1 (repr_rows Ha) (repr_cols Ha)).
  have [_ [_ Ga]] := repr_shape Ha. rewrite (@mapM_range _ n (fun i => mxf A i i)); last by move=> i /ltP Hi; rewrite Ga.
  rewrite /= /sum fold_add_map big_mkord /mxtrace. congr (Some (Ok _)). by apply: eq_bigr => i _; rewrite mxfE.
Qed.
Lemma trace_err a : rows a <> cols a -> @trace O a = Some (Err NotSquare).
Proof. by move=> /eqP H; rewrite /trace square_dims (negbTE H). Qed.
End Arith.
