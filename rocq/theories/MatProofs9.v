(* The Smith algorithm: what is true of it *)
From Coq Require Import NArith.
From mathcomp Require Import all_ssreflect all_algebra all_fingroup.
From Coq Require Import Lia.
From Verif Require Import RingSpec RingModel PermModel MatModel MatSpec MatProofs MatProofs2 MatProofs4 MatProofs5 MatProofs6 MatProofs7.
Close Scope rs_scope.
Set Implicit Arguments.
Unset Strict Implicit.
Unset Printing Implicit Defensive.
Import GRing.Theory.
Local Open Scope ring_scope.

Arguments on_cols : simpl never.
Arguments on_rows : simpl never.
Arguments gcd_opp : simpl never.
Section Smith.
Variable R : idomainType.
Notation O := (mc_ops R).
Notation mat := (matrix (T O)).
Notation st := (mat * mat * mat)%type.
Variable div : div_op O.
Variable ffa : ffa_op O.
Variable xgcd : R -> R -> R * R * R.
Hypothesis BZ : bezout_laws div ffa xgcd.
Let ID := bz_idom BZ.
Definition dvd (a b : R) : Prop := exists c, b = c * a.
Lemma dvd0 a : dvd a 0. Proof. exists 0. by rewrite mul0r. Qed.
Lemma dvd_add a b c : dvd a b -> dvd a c -> dvd a (b + c).
Proof. move=> [x ->] [y ->]. exists (x + y). by rewrite mulrDl. Qed.
Lemma dvd_mul a b c : dvd a b -> dvd a (c * b).
Proof. move=> [x ->]. exists (c * x). by rewrite mulrA. Qed.
Lemma dvd_mulr a b c : dvd a b -> dvd a (b * c).
Proof. by rewrite mulrC; apply: dvd_mul. Qed.

Section Fixed.
Variables (p q : nat) (A : 'M[R]_(p,q)).
Definition sst (s : st) (S : 'M[R]_(p,q)) (U : 'M[R]_p) (V : 'M[R]_q) : Prop :=
  [/\ represents s.1.1 U, represents s.1.2 S, represents s.2 V, S = U *m A *m V & (U \in unitmx) && (V \in unitmx)].

(* the effect of the three kinds of operations on the entries *)
Definition row_add (S : 'M[R]_(p,q)) (i k : 'I_p) (x : R) (S' : 'M[R]_(p,q)) := forall r c, S' r c = if r == i then S i c + x * S k c else S r c.
Lemma E2_mulT n m' (M : 'M[R]_(m',n)) (i j : 'I_n) a b c d r k : (M *m (E2 i j a b c d)^T) r k =
  if k == i then a * M r i + b * M r j else if k == j then c * M r i + d * M r j else M r k.
Proof. rewrite -[M]trmxK -trmx_mul mxE E2_mul !mxE. by []. Qed.
Lemma on_cols_ok s S U V o : sst s S U V -> op_ok q o ->
  exists s' V', on_cols div o s = Some s' /\ sst s' (S *m (opmx q o)^T) U V'.
Proof.
  case: s => [[u m] v] [/= Hu Hm Hv ES /andP [HU HV]] Ho.
  rewrite /on_cols. case: (opp_apply_col ID Hm Ho) => m' [-> Rm]. case: (opp_apply_col ID Hv Ho) => v' [-> Rv] /=.
  exists (u, m', v'), (V *m (opmx q o)^T). split=> //. split=> //=; first by rewrite ES mulmxA.
  by rewrite HU unitmx_mul HV unitmx_tr (opmx_unit Ho).
Qed.
Lemma on_rows_ok s S U V o : sst s S U V -> op_ok p o ->
  exists s' U', on_rows div o s = Some s' /\ sst s' (opmx p o *m S) U' V.
Proof.
  case: s => [[u m] v] [/= Hu Hm Hv ES /andP [HU HV]] Ho.
  rewrite /on_rows. case: (opp_apply_row ID Hm Ho) => m' [-> Rm]. case: (opp_apply_row ID Hu Ho) => u' [-> Ru] /=.
  exists (u', m', v), (opmx p o *m U). split=> //. split=> //=; first by rewrite ES !mulmxA.
  by rewrite HV unitmx_mul HU (opmx_unit Ho).
Qed.
Lemma gcd_opp_ok (i j : nat) (a b : R) : (a != 0) || (b != 0) ->
  exists x y bd ad d, [/\ gcd_opp div xgcd i j a b = Some (@TwoInv O i j x y (- bd) ad),
    [/\ a = ad * d, b = bd * d & d = x * a + y * b], x * ad + y * bd = 1, d != 0 & snd (ffa d) = d].
Proof.
  move=> H. rewrite /gcd_opp. case E: (xgcd a b) => [[d x] y]. have [Ed Hd0 Nd [a' [b' [Ea Eb Ha Hb Hdet]]]] := xgcdP BZ E H.
  rewrite /= -Ed eqxx Eb Ea /=. by exists x, y, b', a', d.
Qed.
Lemma twoinv_ok n (i j : 'I_n) (x y bd ad : R) : i != j -> x * ad + y * bd = 1 -> op_ok n (@TwoInv O i j x y (- bd) ad).
Proof.
  move=> Hij H. split=> /=. { split; try exact: ltn_ord. by apply/eqP. } by rewrite /opp_det /= mulrN opprK H unitr1.
Qed.
Lemma add_ok n (i j : 'I_n) (x : R) : i != j -> op_ok n (@AddRowMul O i j x).
Proof. move=> Hij. split=> /=; last exact: unitr1. split; try exact: ltn_ord. by apply/eqP. Qed.
Lemma swap_ok n (i j : 'I_n) : i != j -> op_ok n (@Swap O i j).
Proof. move=> Hij. split=> /=; last by rewrite /opp_det /= unitrN unitr1. split; try exact: ltn_ord. by apply/eqP. Qed.

(* rows and columns before n are already in final form *)
Definition block (n : nat) (S : 'M[R]_(p,q)) : Prop :=
  forall (i : 'I_p) (j : 'I_q), (i < n)%N || (j < n)%N -> (i : nat) <> j -> S i j = 0.
Definition same_before (n : nat) (S S' : 'M[R]_(p,q)) : Prop := forall (i : 'I_p) (j : 'I_q), (i < n)%N || (j < n)%N -> S' i j = S i j.
Lemma same_block n S S' : same_before n S S' -> block n S -> block n S'.
Proof. move=> H B i j Hn Hij. by rewrite H // B. Qed.
Lemma same_refl n S : same_before n S S. Proof. by []. Qed.
Lemma same_trans n S1 S2 S3 : same_before n S1 S2 -> same_before n S2 S3 -> same_before n S1 S3.
Proof. move=> H1 H2 i j Hn. by rewrite H2 // H1. Qed.
(* the current pivot *)
Definition pivot_ok (S : 'M[R]_(p,q)) (n : 'I_p) (n' : 'I_q) := S n n' != 0 /\ snd (ffa (S n n')) = S n n'.
(* x divides all entries from (n, n) on *)
Definition all_dvd (x : R) (n : nat) (S : 'M[R]_(p,q)) := forall (i : 'I_p) (j : 'I_q), (n <= i)%N -> (n <= j)%N -> dvd x (S i j).

(* column operations on columns k, c >= n, row operations on rows >= n *)
Lemma col2_block n S (k c : 'I_q) a b c' d : block n S -> (n <= k)%N -> (n <= c)%N ->
  same_before n S (S *m (E2 k c a b c' d)^T).
Proof.
  move=> B Hk Hc i j Hn. rewrite E2_mulT. case: (j =P k) => [Ej|_]; [|case: (j =P c) => [Ej|//]].
  - subst j. case/orP: Hn => [Hi|Hj]; last by move: (leq_trans Hj Hk); rewrite ltnn.
    have Z : forall j' : 'I_q, (n <= j')%N -> S i j' = 0. { move=> j' Hj'. apply: B; first by rewrite Hi. move=> E. by move: (leq_trans Hi Hj'); rewrite E ltnn. }
    by rewrite !Z // !mulr0 addr0.
  - subst j. case/orP: Hn => [Hi|Hj]; last by move: (leq_trans Hj Hc); rewrite ltnn.
    have Z : forall j' : 'I_q, (n <= j')%N -> S i j' = 0. { move=> j' Hj'. apply: B; first by rewrite Hi. move=> E. by move: (leq_trans Hi Hj'); rewrite E ltnn. }
    by rewrite !Z // !mulr0 addr0.
Qed.
Lemma row2_block n S (k c : 'I_p) a b c' d : block n S -> (n <= k)%N -> (n <= c)%N ->
  same_before n S (E2 k c a b c' d *m S).
Proof.
  move=> B Hk Hc i j Hn. rewrite E2_mul.
  have Z : (n <= i)%N -> forall i' : 'I_p, (n <= i')%N -> S i' j = 0.
  { move=> Hi i' Hi'. case/orP: Hn => [Hn|Hj]; first by move: (leq_trans Hn Hi); rewrite ltnn.
    apply: B; first by rewrite Hj orbT. move=> E. by move: (leq_trans Hj Hi'); rewrite E ltnn. }
  case: (i =P k) => [Ei|_]; [|case: (i =P c) => [Ei|//]]; subst i; by rewrite !Z // !mulr0 addr0.
Qed.
Lemma col2_dvd n S x (k c : 'I_q) a b c' d : (n <= k)%N -> (n <= c)%N -> all_dvd x n S -> all_dvd x n (S *m (E2 k c a b c' d)^T).
Proof. move=> Hk Hc H i j Hi Hj. rewrite E2_mulT. case: ifP => _; [|case: ifP => _; last exact: H]; apply: dvd_add; apply: dvd_mul; exact: H. Qed.
Lemma row2_dvd n S x (k c : 'I_p) a b c' d : (n <= k)%N -> (n <= c)%N -> all_dvd x n S -> all_dvd x n (E2 k c a b c' d *m S).
Proof. move=> Hk Hc H i j Hi Hj. rewrite E2_mul. case: ifP => _; [|case: ifP => _; last exact: H]; apply: dvd_add; apply: dvd_mul; exact: H. Qed.

Lemma cols2 n s S U V (k c : 'I_q) o a b c' d : sst s S U V -> block n S -> (n <= k)%N -> (n <= c)%N -> op_ok q o -> opmx q o = E2 k c a b c' d ->
  exists s' V' S', [/\ on_cols div o s = Some s', sst s' S' U V', same_before n S S', (forall x, all_dvd x n S -> all_dvd x n S') &
     forall r j, S' r j = if j == k then a * S r k + b * S r c else if j == c then c' * S r k + d * S r c else S r j].
Proof.
  move=> H B Hk Hc Ho E. case: (on_cols_ok H Ho) => s' [V' [Es H']]. exists s', V', (S *m (opmx q o)^T). split=> //; rewrite E.
  - exact: col2_block.
  - move=> x. exact: col2_dvd.
  - move=> r j. exact: E2_mulT.
Qed.
Lemma rows2 n s S U V (k c : 'I_p) o a b c' d : sst s S U V -> block n S -> (n <= k)%N -> (n <= c)%N -> op_ok p o -> opmx p o = E2 k c a b c' d ->
  exists s' U' S', [/\ on_rows div o s = Some s', sst s' S' U' V, same_before n S S', (forall x, all_dvd x n S -> all_dvd x n S') &
     forall r j, S' r j = if r == k then a * S k j + b * S c j else if r == c then c' * S k j + d * S c j else S r j].
Proof.
  move=> H B Hk Hc Ho E. case: (on_rows_ok H Ho) => s' [U' [Es H']]. exists s', U', (opmx p o *m S). split=> //; rewrite E.
  - exact: row2_block.
  - move=> x. exact: row2_dvd.
  - move=> r j. exact: E2_mul.
Qed.

Variables (n : nat) (Hnp : (n < p)%N) (Hnq : (n < q)%N).
Let np := Ordinal Hnp.
Let nq := Ordinal Hnq.
Lemma neq_c (c : 'I_q) : (n < c)%N -> c != nq. Proof. move=> H. apply/eqP => E. by move: H; rewrite E /= ltnn. Qed.
Lemma neq_r (r : 'I_p) : (n < r)%N -> r != np. Proof. move=> H. apply/eqP => E. by move: H; rewrite E /= ltnn. Qed.

(* ---- clearing the row and the column of the pivot *)
Definition rowz (S : 'M[R]_(p,q)) (lo hi : nat) := forall j : 'I_q, (lo < j)%N -> (j < hi)%N -> S np j = 0.
Definition colz (S : 'M[R]_(p,q)) (lo hi : nat) := forall i : 'I_p, (lo < i)%N -> (i < hi)%N -> S i nq = 0.

(* proper divisor *)
Definition sdvd (a b : R) : Prop := dvd a b /\ ~ dvd b a.
Lemma sdvd_trans a b c : dvd a b -> sdvd b c -> sdvd a c.
Proof. move=> [x Hx] [[y Hy] Hn]. split; first by exists (y * x); rewrite -mulrA -Hx. move=> [z Hz]. apply: Hn. exists (x * z). by rewrite -mulrA -Hz. Qed.
Lemma pass_c_ok s S U V (c : 'I_q) ad : sst s S U V -> block n S -> pivot_ok S np nq -> (n < c)%N ->
  exists s' V' S' ad', [/\ smith_pass_c div xgcd n c (s, ad) = Some (s', ad'), sst s' S' U V', same_before n S S' /\ (forall x, all_dvd x n S -> all_dvd x n S'),
    [/\ S' np c = 0, pivot_ok S' np nq & forall j, j != nq -> j != c -> S' np j = S np j] &
    if ad' then ad = true /\ (forall i, S' i nq = S i nq) else ad = false /\ dvd (S' np nq) (S np nq) \/ sdvd (S' np nq) (S np nq)].
Proof.
  move=> H B [P1 P2] Hc. case: s H => [[u m] v] H. have [/= _ Hm _ _ _] := H. rewrite /smith_pass_c.
  rewrite (repr_getE np nq Hm) (repr_getE np c Hm) /=. have Hcn := neq_c Hc. have Hnc' : (nq == c) = false by rewrite eq_sym; exact: negbTE.
  case Ed: (div (S np c) (S np nq)) => [x| |].
  - have /= /eqP Ex := div_ok _ _ ID _ _ _ Ed.
    have Ho := @add_ok q c nq (- x) Hcn.
    case: (@cols2 n _ _ _ _ c nq _ 1 (- x) 0 1 H B (ltnW Hc) (leqnn _) Ho); first by rewrite /opmx !valK.
    move=> s' [V' [S' [-> H' Hs Hd HS]]] /=. exists s', V', S', ad. split=> //.
    + rewrite /pivot_ok !HS eqxx. rewrite Hnc' eqxx !mul0r !add0r !mul1r. split=> //; first by rewrite Ex mulNr subrr.
      move=> j Hj1 Hj2. by rewrite HS (negbTE Hj1) (negbTE Hj2).
    + have E : forall i, S' i nq = S i nq by move=> i; rewrite HS Hnc' eqxx mul0r add0r mul1r.
      case: ad => //. left. split=> //. rewrite E. exists 1. by rewrite mul1r.
  - have /= := proj1 (div_zero _ _ ID (S np c) (S np nq)) Ed. by rewrite (negbTE P1).
  - have Hz : (S np nq != 0) || (S np c != 0) by rewrite P1.
    case: (@gcd_opp_ok n c _ _ Hz) => x [y [bd [ad' [d [-> [Ea Eb Edd] Hdet Hd0 Hd]]]]] /=.
    have Hnc : nq != c by rewrite eq_sym.
    have Ho := @twoinv_ok q nq c x y bd ad' Hnc Hdet.
    case: (@cols2 n _ _ _ _ nq c _ x y (- bd) ad' H B (leqnn _) (ltnW Hc) Ho); first by rewrite /opmx !valK.
    move=> s' [V' [S' [-> H' Hs Hdv HS]]] /=. exists s', V', S', false. split=> //.
    + rewrite /pivot_ok !HS eqxx. rewrite (negbTE Hcn) eqxx -Edd. split=> //.
      * by rewrite Ea Eb mulNr mulrCA addNr.
      * move=> j Hj1 Hj2. by rewrite HS (negbTE Hj1) (negbTE Hj2).
    + right. rewrite HS eqxx -Edd. split; first by exists ad'. move=> [z Hz']. apply: (div_not _ _ ID _ _ Ed).
      exists (bd * z). apply/eqP. rewrite Eb Hz' mulrA mulrC. exact: erefl.
Qed.
Lemma pass_r_ok s S U V (r : 'I_p) ad : sst s S U V -> block n S -> pivot_ok S np nq -> (n < r)%N ->
  exists s' U' S' ad', [/\ smith_pass_r div xgcd n r (s, ad) = Some (s', ad'), sst s' S' U' V, same_before n S S' /\ (forall x, all_dvd x n S -> all_dvd x n S'),
    [/\ S' r nq = 0, pivot_ok S' np nq & forall i, i != np -> i != r -> S' i nq = S i nq] &
    if ad' then ad = true /\ (forall j, S' np j = S np j) else ad = false /\ dvd (S' np nq) (S np nq) \/ sdvd (S' np nq) (S np nq)].
Proof.
  move=> H B [P1 P2] Hc. case: s H => [[u m] v] H. have [/= _ Hm _ _ _] := H. rewrite /smith_pass_r.
  rewrite (repr_getE np nq Hm) (repr_getE r nq Hm) /=. have Hcn := neq_r Hc. have Hnc' : (np == r) = false by rewrite eq_sym; exact: negbTE.
  case Ed: (div (S r nq) (S np nq)) => [x| |].
  - have /= /eqP Ex := div_ok _ _ ID _ _ _ Ed.
    have Ho := @add_ok p r np (- x) Hcn.
    case: (@rows2 n _ _ _ _ r np _ 1 (- x) 0 1 H B (ltnW Hc) (leqnn _) Ho); first by rewrite /opmx !valK.
    move=> s' [V' [S' [-> H' Hs Hd HS]]] /=. exists s', V', S', ad. split=> //.
    + rewrite /pivot_ok !HS eqxx. rewrite Hnc' eqxx !mul0r !add0r !mul1r. split=> //; first by rewrite Ex mulNr subrr.
      move=> j Hj1 Hj2. by rewrite HS (negbTE Hj1) (negbTE Hj2).
    + have E : forall j, S' np j = S np j by move=> i; rewrite HS Hnc' eqxx mul0r add0r mul1r.
      case: ad => //. left. split=> //. rewrite E. exists 1. by rewrite mul1r.
  - have /= := proj1 (div_zero _ _ ID (S r nq) (S np nq)) Ed. by rewrite (negbTE P1).
  - have Hz : (S np nq != 0) || (S r nq != 0) by rewrite P1.
    case: (@gcd_opp_ok n r _ _ Hz) => x [y [bd [ad' [d [-> [Ea Eb Edd] Hdet Hd0 Hd]]]]] /=.
    have Hnc : np != r by rewrite eq_sym.
    have Ho := @twoinv_ok p np r x y bd ad' Hnc Hdet.
    case: (@rows2 n _ _ _ _ np r _ x y (- bd) ad' H B (leqnn _) (ltnW Hc) Ho); first by rewrite /opmx !valK.
    move=> s' [V' [S' [-> H' Hs Hdv HS]]] /=. exists s', V', S', false. split=> //.
    + rewrite /pivot_ok !HS eqxx. rewrite (negbTE Hcn) eqxx -Edd. split=> //.
      * by rewrite Ea Eb mulNr mulrCA addNr.
      * move=> j Hj1 Hj2. by rewrite HS (negbTE Hj1) (negbTE Hj2).
    + right. rewrite HS eqxx -Edd. split; first by exists ad'. move=> [z Hz']. apply: (div_not _ _ ID _ _ Ed).
      exists (bd * z). apply/eqP. rewrite Eb Hz' mulrA mulrC. exact: erefl.
Qed.

Definition keeps (S S' : 'M[R]_(p,q)) := same_before n S S' /\ (forall x, all_dvd x n S -> all_dvd x n S').
Lemma keeps_refl S : keeps S S. Proof. by []. Qed.
Lemma keeps_trans S1 S2 S3 : keeps S1 S2 -> keeps S2 S3 -> keeps S1 S3.
Proof. move=> [A1 B1] [A2 B2]. split; [exact: same_trans A1 A2|by move=> x /B1 /B2]. Qed.
Lemma col_pass_ok s S U V : sst s S U V -> block n S -> pivot_ok S np nq ->
  exists s' V' S' ad', [/\ forM (range (n + 1)%coq_nat q) (smith_pass_c div xgcd n) (s, true) = Some (s', ad'), sst s' S' U V', keeps S S',
    (rowz S' n q /\ pivot_ok S' np nq) & if ad' then forall i, S' i nq = S i nq else sdvd (S' np nq) (S np nq)].
Proof.
  move=> H B P. rewrite PeanoNat.Nat.add_1_r.
  case: (@forM_range _ (smith_pass_c div xgcd n) (fun c (sa : st * bool) => exists V' S', [/\ sst sa.1 S' U V', keeps S S',
    (rowz S' n c /\ pivot_ok S' np nq) & if sa.2 then forall i, S' i nq = S i nq else sdvd (S' np nq) (S np nq)]) n.+1 q (s, true)).
  - exact/leP.
  - exists V, S. split=> //. split=> // j H1 H2. by move: (leq_trans H2 H1); rewrite ltnn.
  - move=> c [s1 ad] [/leP Hc1 /ltP Hc2] [V1 [S1 [/= H1 K1 [R1 P1] Ad]]].
    case: (@pass_c_ok s1 S1 U V1 (Ordinal Hc2) ad H1 (same_block (proj1 K1) B) P1 Hc1) => s2 [V2 [S2 [ad2 [E H2 K2 [Z2 P2 Hsame] Ad2]]]].
    exists (s2, ad2). split; first exact: E. exists V2, S2. rewrite PeanoNat.Nat.add_1_r /=. split=> //.
    + exact: keeps_trans K1 K2.
    + split=> // j Hj1 Hj2. case: (eqVneq j (Ordinal Hc2)) => [->|Hj] //. rewrite Hsame ?neq_c //. apply: R1 => //.
      rewrite ltn_neqAle -ltnS Hj2 andbT. by apply: contraNneq Hj => Ej; apply/eqP/val_inj.
    + case: ad2 Ad2 {E} => [[Ead Hi]|[[Ead Hd]|Hd]].
      * rewrite Ead in Ad. by move=> i; rewrite Hi Ad.
      * rewrite Ead in Ad. exact: sdvd_trans Hd Ad.
      * case: ad Ad => [Hi|Hs]; first by rewrite -Hi. exact: sdvd_trans (proj1 Hd) Hs.
  - move=> [s' ad'] [E [V' [S' [/= H' K' RP Ad]]]]. by exists s', V', S', ad'.
Qed.
Lemma row_pass_ok s S U V : sst s S U V -> block n S -> pivot_ok S np nq ->
  exists s' U' S' ad', [/\ forM (range (n + 1)%coq_nat p) (smith_pass_r div xgcd n) (s, true) = Some (s', ad'), sst s' S' U' V, keeps S S',
    (colz S' n p /\ pivot_ok S' np nq) & if ad' then forall j, S' np j = S np j else sdvd (S' np nq) (S np nq)].
Proof.
  move=> H B P. rewrite PeanoNat.Nat.add_1_r.
  case: (@forM_range _ (smith_pass_r div xgcd n) (fun c (sa : st * bool) => exists V' S', [/\ sst sa.1 S' V' V, keeps S S',
    (colz S' n c /\ pivot_ok S' np nq) & if sa.2 then forall i, S' np i = S np i else sdvd (S' np nq) (S np nq)]) n.+1 p (s, true)).
  - exact/leP.
  - exists U, S. split=> //. split=> // j H1 H2. by move: (leq_trans H2 H1); rewrite ltnn.
  - move=> c [s1 ad] [/leP Hc1 /ltP Hc2] [V1 [S1 [/= H1 K1 [R1 P1] Ad]]].
    case: (@pass_r_ok s1 S1 V1 V (Ordinal Hc2) ad H1 (same_block (proj1 K1) B) P1 Hc1) => s2 [V2 [S2 [ad2 [E H2 K2 [Z2 P2 Hsame] Ad2]]]].
    exists (s2, ad2). split; first exact: E. exists V2, S2. rewrite PeanoNat.Nat.add_1_r /=. split=> //.
    + exact: keeps_trans K1 K2.
    + split=> // j Hj1 Hj2. case: (eqVneq j (Ordinal Hc2)) => [->|Hj] //. rewrite Hsame ?neq_r //. apply: R1 => //.
      rewrite ltn_neqAle -ltnS Hj2 andbT. by apply: contraNneq Hj => Ej; apply/eqP/val_inj.
    + case: ad2 Ad2 {E} => [[Ead Hi]|[[Ead Hd]|Hd]].
      * rewrite Ead in Ad. by move=> i; rewrite Hi Ad.
      * rewrite Ead in Ad. exact: sdvd_trans Hd Ad.
      * case: ad Ad => [Hi|Hs]; first by rewrite -Hi. exact: sdvd_trans (proj1 Hd) Hs.
  - move=> [s' ad'] [E [V' [S' [/= H' K' RP Ad]]]]. by exists s', V', S', ad'.
Qed.
(* one turn of the loop: either it returns a matrix with a clean cross, or it goes on with a proper divisor as pivot *)
Lemma zero_step s (S : 'M[R]_(p,q)) U V first : sst s S U V -> block n S -> pivot_ok S np nq -> (first = false -> colz S n p) ->
  exists s' U' V' (S' : 'M[R]_(p,q)), [/\ sst s' S' U' V', keeps S S', pivot_ok S' np nq, colz S' n p &
    ((forall f, smith_zero_loop div xgcd f.+1 n first s = Some s') /\ rowz S' n q) \/
    ((forall f, smith_zero_loop div xgcd f.+1 n first s = smith_zero_loop div xgcd f n false s') /\ sdvd (S' np nq) (S np nq))].
Proof.
  move=> H B P F. case: s H => [[u m] v] H. have [/= _ Hm _ _ _] := H. rewrite (repr_cols Hm).
  case: (col_pass_ok H B P) => s1 [V1 [S1 [ad1 [-> H1 K1 [R1 P1] Ad1]]]]. rewrite /=.
  case Hcont: (ad1 && ~~ first).
  - move/andP: Hcont => [E1 /negbTE E2]. rewrite E1 in Ad1. exists s1, U, V1, S1. split=> //; last by left. move=> i Hi1 Hi2. by rewrite Ad1 F.
  - rewrite (repr_rows Hm). case: (row_pass_ok H1 (same_block (proj1 K1) B) P1) => s2 [U2 [S2 [ad2 [-> H2 K2 [C2 P2] Ad2]]]]. rewrite /=.
    exists s2, U2, V1, S2. split=> //; first exact: keeps_trans K1 K2. case: ad2 Ad2 => Ad2.
    + left. split=> // j Hj1 Hj2. by rewrite Ad2 R1.
    + right. split=> //. case: ad1 Ad1 {Hcont} => Ad1; first by rewrite -(Ad1 np). exact: sdvd_trans (proj1 Ad2) Ad1.
Qed.
Lemma zero_loop_partial : forall fuel first s (S : 'M[R]_(p,q)) U V s', sst s S U V -> block n S -> pivot_ok S np nq -> (first = false -> colz S n p) ->
  smith_zero_loop div xgcd fuel n first s = Some s' -> exists U' V' S', [/\ sst s' S' U' V', keeps S S', pivot_ok S' np nq, colz S' n p & rowz S' n q].
Proof.
  elim=> [|fuel IH] first s S U V s' H B P F E //.
  case: (zero_step H B P F) => s1 [U1 [V1 [S1 [H1 K1 P1 C1 [[E1 R1]|[E1 _]]]]]]; rewrite E1 in E.
  - move: E => [<-]. by exists U1, V1, S1.
  - case: (IH _ _ _ _ _ _ H1 (same_block (proj1 K1) B) P1 (fun _ => C1) E) => U2 [V2 [S2 [H2 K2 P2 C2 R2]]].
    exists U2, V2, S2. split=> //. exact: keeps_trans K1 K2.
Qed.
Lemma zero_loop_total first s (S : 'M[R]_(p,q)) U V : Acc sdvd (S np nq) -> sst s S U V -> block n S -> pivot_ok S np nq -> (first = false -> colz S n p) ->
  exists f0 s', forall f, (f0 <= f)%N -> smith_zero_loop div xgcd f n first s = Some s'.
Proof.
  move: {-1}(S np nq) (erefl (S np nq)) => a Ea HA. elim: HA first s S U V Ea => {a} a _ IH first s S U V Ea H B P F.
  case: (zero_step H B P F) => s1 [U1 [V1 [S1 [H1 K1 P1 C1 [[E1 R1]|[E1 Hd]]]]]].
  - exists 1%N, s1 => f Hf. case: f Hf => // f _.
  - rewrite Ea in Hd. case: (IH _ Hd false s1 S1 U1 V1 (erefl _) H1 (same_block (proj1 K1) B) P1 (fun _ => C1)) => f0 [s' Hs'].
    exists f0.+1, s' => f Hf. case: f Hf => // f Hf. rewrite E1. exact: Hs'.
Qed.

(* ---- adding the other rows *)
Lemma gcd_c_ok s S U V (c : 'I_q) : sst s S U V -> block n S -> (n < c)%N ->
  exists s' V' S' W, [/\ smith_gcd_c div xgcd n c s = Some s', sst s' S' U V', keeps S S' /\ (S' = S *m W /\ W \in unitmx),
    S' np c = 0 /\ snd (ffa (S' np nq)) = S' np nq & forall j, j != nq -> j != c -> S' np j = S np j].
Proof.
  move=> H B Hc. case: s H => [[u m] v] H. have [/= _ Hm _ _ _] := H. rewrite /smith_gcd_c.
  rewrite (repr_getE np nq Hm) (repr_getE np c Hm) /=. have Hcn := neq_c Hc. case: ifP => Hz.
  - have Hz' : (S np nq != 0) || (S np c != 0) by exact: Hz.
    case: (@gcd_opp_ok n c _ _ Hz') => x [y [bd [ad' [d [-> [Ea Eb Edd] Hdet Hd0 Hd]]]]] /=.
    have Hnc : nq != c by rewrite eq_sym.
    have Ho := @twoinv_ok q nq c x y bd ad' Hnc Hdet.
    have E : opmx q (@TwoInv O nq c x y (- bd) ad') = E2 nq c x y (- bd) ad' by rewrite /opmx !valK.
    case: (on_cols_ok H Ho) => s' [V' [-> H']] /=. rewrite E in H'.
    exists s', V', (S *m (E2 nq c x y (- bd) ad')^T), (E2 nq c x y (- bd) ad')^T. split=> //.
    + split; last by rewrite unitmx_tr -E (opmx_unit Ho). split; [apply: col2_block B _ _ => //; exact: ltnW|move=> z; apply: col2_dvd => //; exact: ltnW].
    + rewrite !E2_mulT !eqxx (negbTE Hcn) -Edd. split=> //. by rewrite Ea Eb mulNr mulrCA addNr.
    + move=> j Hj1 Hj2. by rewrite E2_mulT (negbTE Hj1) (negbTE Hj2).
  - move/negbT: Hz. rewrite negb_or !negbK => /andP [/eqP Ha /eqP Hb].
    have Ha' : S np nq = 0 by exact: Ha. have Hb' : S np c = 0 by exact: Hb.
    exists (u, m, v), V, S, 1%:M. split=> //; first by rewrite mulmx1 unitmx1. by rewrite Ha' (ffa0 BZ).
Qed.
Lemma gcd_loop_ok s S U V : sst s S U V -> block n S ->
  exists s' V' S' W, [/\ forM (range (n + 1)%coq_nat q) (smith_gcd_c div xgcd n) s = Some s', sst s' S' U V', keeps S S' /\ (S' = S *m W /\ W \in unitmx),
    rowz S' n q & ((n.+1 < q)%N -> snd (ffa (S' np nq)) = S' np nq) /\ ((q <= n.+1)%N -> S' = S)].
Proof.
  move=> H B. rewrite PeanoNat.Nat.add_1_r.
  case: (@forM_range _ (smith_gcd_c div xgcd n) (fun c (s1 : st) => exists V' S' W, [/\ sst s1 S' U V', keeps S S' /\ (S' = S *m W /\ W \in unitmx),
    rowz S' n c & ((n.+1 < c)%N -> snd (ffa (S' np nq)) = S' np nq) /\ ((c <= n.+1)%N -> S' = S)]) n.+1 q s).
  - exact/leP.
  - exists V, S, 1%:M. split=> //; first by rewrite mulmx1 unitmx1. { move=> j H1 H2. by move: (leq_trans H2 H1); rewrite ltnn. } by rewrite ltnn.
  - move=> c s1 [/leP Hc1 /ltP Hc2] [V1 [S1 [W1 [H1 [K1 [EW1 HW1]] R1 N1]]]].
    case: (@gcd_c_ok s1 S1 U V1 (Ordinal Hc2) H1 (same_block (proj1 K1) B) Hc1) => s2 [V2 [S2 [W2 [E H2 [K2 [EW2 HW2]] [Z2 N2] Hsame]]]].
    exists s2. split; first exact: E. exists V2, S2, (W1 *m W2). rewrite PeanoNat.Nat.add_1_r. split=> //.
    + split; first exact: keeps_trans K1 K2. by rewrite EW2 EW1 mulmxA unitmx_mul HW1 HW2.
    + move=> j Hj1 Hj2. case: (eqVneq j (Ordinal Hc2)) => [->|Hj] //. rewrite Hsame ?neq_c //. apply: R1 => //.
      rewrite ltn_neqAle -ltnS Hj2 andbT. by apply: contraNneq Hj => Ej; apply/eqP/val_inj.
    + split=> // Hle. by move: (leq_ltn_trans Hc1 Hle); rewrite ltnn.
  - move=> s' [E [V' [S' [W [H' K' R' N']]]]]. by exists s', V', S', W.
Qed.
Lemma add_row_ok s (S : 'M[R]_(p,q)) U V (r : 'I_p) : sst s S U V -> block n S -> (n < r)%N ->
  exists s' U' V' (S' S1 : 'M[R]_(p,q)) W, [/\ smith_add_row div xgcd n r s = Some s', sst s' S' U' V', keeps S S1 /\ keeps S1 S',
    (forall i j, S1 i j = if i == np then S np j + S r j else S i j) /\ (S' = S1 *m W /\ W \in unitmx) &
    rowz S' n q /\ ((n.+1 < q)%N -> snd (ffa (S' np nq)) = S' np nq) /\ ((q <= n.+1)%N -> S' = S1)].
Proof.
  move=> H B Hr. rewrite /smith_add_row. have Hrn := neq_r Hr. have Hnr : np != r by rewrite eq_sym.
  have Ho := @add_ok p np r 1 Hnr.
  case: (@rows2 n _ _ _ _ np r _ 1 1 0 1 H B (leqnn _) (ltnW Hr) Ho); first by rewrite /opmx !valK.
  move=> s1 [U1 [S1 [Es1 H1 Hs Hd HS]]]. rewrite -[n in AddRowMul n]/(nat_of_ord np) Es1 /=. case: s1 H1 {Es1} => [[u m] v] H1.
  have [/= _ Hm _ _ _] := H1. rewrite (repr_cols Hm).
  case: (gcd_loop_ok H1 (same_block Hs B)) => s' [V' [S' [W [-> H' [K' EW] R' N']]]].
  exists s', U1, V', S', S1, W. split=> //. split=> // i j. rewrite HS !mul1r mul0r add0r. case: eqP => // _. by case: eqP => // ->.
Qed.
(* what the rows at and below n look like after the additions; with at most one row below, the pivot divides everything *)
Lemma add_rows_ok s (S : 'M[R]_(p,q)) U V : sst s S U V -> block n S -> rowz S n q -> colz S n p -> pivot_ok S np nq ->
  exists s' U' V' (S' : 'M[R]_(p,q)), [/\ forM (range (n + 1)%coq_nat p) (smith_add_row div xgcd n) s = Some s', sst s' S' U' V', keeps S S', rowz S' n q &
    [/\ snd (ffa (S' np nq)) = S' np nq, ((p <= n.+1)%N -> S' = S) & (p <= n.+2)%N -> S' np nq != 0 /\ all_dvd (S' np nq) n S']].
Proof.
  move=> H B Rz Cz [P0 N]. rewrite PeanoNat.Nat.add_1_r.
  have Hrow : all_dvd (S np nq) n S \/ (n.+1 < p)%N.
  { case: (ltnP n.+1 p) => Hp; [by right|left]. move=> i j Hi Hj. have Ei : i = np. { apply/val_inj => /=. apply/eqP. rewrite eqn_leq Hi andbT -ltnS. exact: leq_trans (ltn_ord i) Hp. }
    rewrite Ei. case: (eqVneq j nq) => [->|Hjn]; first by exists 1; rewrite mul1r. rewrite (Rz j) //; last first.
    { rewrite ltn_neqAle Hj andbT. apply: contraNneq Hjn => Ej. apply/eqP/val_inj. by rewrite /= Ej. } exact: dvd0. }
  case: (@forM_range _ (smith_add_row div xgcd n) (fun c (s1 : st) => exists U' V' (S' : 'M[R]_(p,q)), [/\ sst s1 S' U' V', keeps S S',
     rowz S' n q, snd (ffa (S' np nq)) = S' np nq /\ ((q <= n.+1)%N -> colz S' n p) &
     ((c <= n.+1)%N -> S' = S) /\ (c = n.+2 -> p = n.+2 -> S' np nq != 0 /\ all_dvd (S' np nq) n S')]) n.+1 p s).
  - exact/leP.
  - exists U, V, S. split=> //. split=> // E. by move/eqP: E; rewrite -[n.+2]addn1 -[n.+1]addn1 -{1}[(n + 1)%N]addn0 eqn_add2l.
  - move=> c s1 [/leP Hc1 /ltP Hc2] [U1 [V1 [S1 [H1 K1 R1 [N1 C1] [E0 _]]]]].
    case: (@add_row_ok s1 S1 U1 V1 (Ordinal Hc2) H1 (same_block (proj1 K1) B) Hc1) => s2 [U2 [V2 [S2 [T [W [E H2 [K2 K3] [ET [EW HW]] [R2 [N2 M2]]]]]]]].
    exists s2. split; first exact: E. exists U2, V2, S2. rewrite PeanoNat.Nat.add_1_r. split=> //.
    + exact: keeps_trans K1 (keeps_trans K2 K3).
    + case: (ltnP n.+1 q) => Hq; first by split; [exact: N2|].
      rewrite (M2 Hq) ET eqxx (C1 Hq (Ordinal Hc2)) //= addr0. split=> // _ i Hi1 Hi2. rewrite ET (negbTE (neq_r Hi1)). exact: C1.
    + split=> [Hle|[Ec]]; first by move: (leq_ltn_trans Hc1 Hle); rewrite ltnn.
      move=> Ep. subst c. have ES1 := E0 (leqnn _). subst S1. move: (H2) => [_ _ _ _ _].
      (* row n of S2 is (g, 0, ..., 0) and T = S2 * W^-1 *)
      set g := S2 np nq.
      have HT : forall j, dvd g (T np j).
      { move=> j. have -> : T np j = \sum_k S2 np k * (invmx W) k j. { have -> : T = S2 *m invmx W by rewrite EW mulmxK. by rewrite mxE. }
        rewrite (bigD1 nq) //= big1 ?addr0. { exists (invmx W nq j). by rewrite mulrC. }
        move=> k Hk. case: (ltngtP k n) => Hkn.
        - rewrite (same_block (proj1 (keeps_trans K2 K3)) B) ?mul0r //=; first by rewrite Hkn orbT. move=> Ek. by move: Hkn; rewrite -Ek ltnn.
        - by rewrite R2 // mul0r.
        - by case/eqP: Hk; apply/val_inj. }
      have HTn : dvd g (S np nq). { have := HT nq. by rewrite ET eqxx (Cz (Ordinal Hc2)) //= addr0. }
      have Hg0 : g != 0. { apply: contraNneq P0 => G. move: HTn => [z ->]. by rewrite G mulr0. }
      have Hr : forall j : 'I_q, (n <= j)%N -> dvd g (S (Ordinal Hc2) j).
      { move=> j Hj. case: (eqVneq j nq) => [->|Hjn]; first by rewrite Cz //=; exact: dvd0.
        have Hj' : (n < j)%N. { rewrite ltn_neqAle Hj andbT. apply: contraNneq Hjn => Ej. apply/eqP/val_inj. by rewrite /= Ej. }
        have := HT j. by rewrite ET eqxx (Rz j Hj' (ltn_ord j)) add0r. }
      split=> //. apply: (proj2 K3) => i' j' Hi' Hj'. case: (eqVneq i' np) => [->|Hin]; first exact: HT.
      rewrite ET (negbTE Hin). have -> : i' = Ordinal Hc2; last exact: Hr.
      apply/val_inj => /=. apply/eqP. rewrite eqn_leq. apply/andP; split; first by rewrite -ltnS -[X in (_ < X)%N]Ep; exact: ltn_ord.
      rewrite ltn_neqAle Hi' andbT. apply: contraNneq Hin => Ei. apply/eqP/val_inj. by rewrite /= Ei.
  - move=> s' [E [U' [V' [S' [H' K' R' [N' _] [E0 HD]]]]]]. exists s', U', V', S'. split=> //. split=> // Hp.
    move: Hp. rewrite leq_eqVlt => /orP [/eqP Ep|Hp].
    + by apply: HD.
    + rewrite (E0 Hp). split=> //. case: Hrow => // Hr. by move: (leq_trans Hr Hp); rewrite ltnn.
Qed.

(* ---- clearing the column again *)
Lemma fix_r_ok s (S : 'M[R]_(p,q)) U V (r : 'I_p) : sst s S U V -> block n S -> rowz S n q -> (n < r)%N ->
  (forall s', smith_fix div n r s = Some s' -> exists U' (S' : 'M[R]_(p,q)), [/\ sst s' S' U' V, keeps S S', S np nq != 0, S' r nq = 0 & forall i, i != r -> forall j, S' i j = S i j]) /\
  (S np nq != 0 -> dvd (S np nq) (S r nq) -> exists s', smith_fix div n r s = Some s').
Proof.
  move=> H B Rz Hr. case: s H => [[u m] v] H. have [/= _ Hm _ _ _] := H. rewrite /smith_fix.
  rewrite (repr_getE np nq Hm) (repr_getE r nq Hm) /=. have Hrn := neq_r Hr.
  case Ed: (div (S r nq) (S np nq)) => [x| |] /=.
  - have /= /eqP Ex := div_ok _ _ ID _ _ _ Ed. have Ho := @add_ok p r np (- x) Hrn.
    case: (@rows2 n _ _ _ _ r np _ 1 (- x) 0 1 H B (ltnW Hr) (leqnn _) Ho); first by rewrite /opmx !valK.
    move=> s1 [U1 [S1 [E1 H1 Hs Hd HS]]]. rewrite -[n in AddRowMul _ n]/(nat_of_ord np) E1. split; last by move=> *; exists s1.
    move=> s' [<-]. exists U1, S1. split=> //.
    + apply/negP => /eqP Z. have := proj2 (div_zero _ _ ID (S r nq) (S np nq)). rewrite Ed Z /= eqxx => F. by discriminate (F erefl).
    + by rewrite HS eqxx mul1r Ex mulNr subrr.
    + move=> i Hi j. rewrite HS (negbTE Hi). case: eqP => // ->. by rewrite mul0r add0r mul1r.
  - split=> // H0 _. have /= := proj1 (div_zero _ _ ID (S r nq) (S np nq)) Ed. by rewrite (negbTE H0).
  - split=> // _ [c Hc]. case: (div_not _ _ ID _ _ Ed). exists c. apply/eqP. rewrite Hc mulrC. exact: erefl.
Qed.
Lemma forM_range_part (X : Type) (body : nat -> X -> option X) (P : nat -> X -> Prop) b : forall a s s', (a <= b)%N ->
  P a s -> (forall i s s', (a <= i < b)%N -> P i s -> body i s = Some s' -> P i.+1 s') -> forM (range a b) body s = Some s' -> P b s'.
Proof.
  move=> a s s' Hab. rewrite /range. have Hb : b = (a + (b - a)%coq_nat)%N by rewrite -[Nat.sub b a]/(b - a)%N subnKC.
  move: Hb. move: (b - a)%coq_nat => k. clear Hab. elim: k a s => [|k IH] a s Hb H0 Hs /=.
  - move=> [<-]. by rewrite Hb addn0.
  - case E: (body a s) => [s1|] //=. apply: (IH a.+1 s1).
    + by rewrite Hb addSnnS.
    + apply: Hs E => //. by rewrite leqnn Hb -addSnnS leq_addr.
    + move=> i s2 s3 /andP [Hi1 Hi2]. apply: Hs. by rewrite (ltnW Hi1).
Qed.
Lemma fix_partial s (S : 'M[R]_(p,q)) U V s' : sst s S U V -> block n S -> rowz S n q -> ((p <= n.+1)%N -> S np nq != 0) ->
  forM (range (n + 1)%coq_nat p) (smith_fix div n) s = Some s' ->
  exists U' (S' : 'M[R]_(p,q)), [/\ sst s' S' U' V, keeps S S', S np nq != 0 /\ (forall j, S' np j = S np j), rowz S' n q & colz S' n p].
Proof.
  move=> H B Rz Hp. rewrite PeanoNat.Nat.add_1_r => E.
  pose P (c : nat) (s1 : st) := exists U' (S' : 'M[R]_(p,q)), [/\ sst s1 S' U' V, keeps S S', ((n.+1 < c)%N -> S np nq != 0) /\ (forall j, S' np j = S np j), rowz S' n q & colz S' n c].
  have : P p s'.
  { apply: (@forM_range_part _ (smith_fix div n) P p n.+1 s s' Hnp) E.
    - exists U, S. split=> //; first by rewrite ltnn. move=> i H1 H2. by move: (leq_trans H2 H1); rewrite ltnn.
    - move=> c s1 s2 /andP [Hc1 Hc2] [U1 [S1 [H1 K1 [_ E1] R1 C1]]] E2.
      case: (@fix_r_ok s1 S1 U1 V (Ordinal Hc2) H1 (same_block (proj1 K1) B) R1 Hc1) => /= Hx _.
      case: (Hx _ E2) => U2 [S2 [H2 K2 Hz Z2 Hsame]]. have Hnc : np != Ordinal Hc2 by rewrite eq_sym; exact: neq_r.
      exists U2, S2. split=> //.
      + exact: keeps_trans K1 K2.
      + split=> [_|j]; first by rewrite -E1. by rewrite Hsame // E1.
      + move=> j Hj1 Hj2. rewrite Hsame //. exact: R1.
      + move=> i Hi1 Hi2. case: (eqVneq i (Ordinal Hc2)) => [->|Hne] //. rewrite Hsame //. apply: C1 => //.
        rewrite ltn_neqAle -ltnS Hi2 andbT. by apply: contraNneq Hne => Ei; apply/eqP/val_inj. }
  move=> [U' [S' [H' K' [Hz Hs] R' C']]]. exists U', S'. split=> //. split=> //.
  case: (ltnP n.+1 p) => Hlt; [exact: Hz|exact: Hp].
Qed.
Lemma fix_total s (S : 'M[R]_(p,q)) U V : sst s S U V -> block n S -> rowz S n q -> S np nq != 0 -> all_dvd (S np nq) n S ->
  exists s', forM (range (n + 1)%coq_nat p) (smith_fix div n) s = Some s'.
Proof.
  move=> H B Rz Hz Hd. rewrite PeanoNat.Nat.add_1_r.
  case: (@forM_range _ (smith_fix div n) (fun c (s1 : st) => exists U' (S' : 'M[R]_(p,q)), [/\ sst s1 S' U' V, keeps S S', (forall j, S' np j = S np j) & rowz S' n q]) n.+1 p s).
  - exact/leP.
  - by exists U, S.
  - move=> c s1 [/leP Hc1 /ltP Hc2] [U1 [S1 [H1 K1 E1 R1]]].
    case: (@fix_r_ok s1 S1 U1 V (Ordinal Hc2) H1 (same_block (proj1 K1) B) R1 Hc1) => /= Hx Hy.
    case: Hy; [by rewrite E1|rewrite E1; apply: (proj2 K1) => //; exact: ltnW|]. move=> s2 E2. case: (Hx _ E2) => U2 [S2 [H2 K2 _ Z2 Hsame]].
    have Hnc : np != Ordinal Hc2 by rewrite eq_sym; exact: neq_r.
    exists s2. split=> //. exists U2, S2. split=> //; first exact: keeps_trans K1 K2; first by move=> j; rewrite Hsame. move=> j Hj1 Hj2. rewrite Hsame //. exact: R1.
  - move=> s' [E _]. by exists s'.
Qed.
(* ---- the search *)
Definition good (S : 'M[R]_(p,q)) : Prop := (exists2 c : 'I_q, (n <= c)%N & S np c != 0) \/ (forall (i : 'I_p) (j : 'I_q), (n <= i)%N -> (n <= j)%N -> S i j = 0).
Lemma find_c_ok m (S : 'M[R]_(p,q)) (r : 'I_p) : represents m S -> forall l, (forall c, List.In c l -> (c < q)%N) ->
  exists f, @find_nonzero_c O m r l = Some f /\
    match f with Some c => List.In c l /\ (exists Hc : (c < q)%N, S r (Ordinal Hc) != 0) | None => forall (c : 'I_q), List.In (nat_of_ord c) l -> S r c = 0 end.
Proof.
  move=> Hm. elim=> [|c l IH] Hl /=; first by exists None.
  have Hc : (c < q)%N by apply: Hl; left. rewrite (repr_getE r (Ordinal Hc) Hm) /=. case: ifP => Hz.
  - exists (Some c). split=> //. split; [by left|]. by exists Hc.
  - case: IH => [c' Hc'|f [-> Hf]]; first by apply: Hl; right. exists f. split=> //. case: f Hf => [c'|] Hf.
    + case: Hf => H1 H2. split=> //. by right.
    + move=> c' [Ec|Hin]; last exact: Hf. move/negbT: Hz. rewrite negbK => /eqP Hz. have -> : c' = Ordinal Hc by apply/val_inj. exact: Hz.
Qed.
Lemma find_rc_ok m (S : 'M[R]_(p,q)) : represents m S -> (forall (i : 'I_p) (j : 'I_q), (n <= i)%N -> (n <= j)%N -> S i j = 0) ->
  forall l, (forall r, List.In r l -> (n <= r < p)%N) -> @find_nonzero_rc O m n l = Some None.
Proof.
  move=> Hm HZ. elim=> [|r l IH] Hl //=. have /andP [Hr1 Hr2] : (n <= r < p)%N by apply: Hl; left. rewrite (repr_cols Hm).
  case: (@find_c_ok m S (Ordinal Hr2) Hm (range n q)) => [c /in_rangeP /andP [] //|f [/= -> Hf]] /=.
  case: f Hf => [c [Hin [Hc Hz]]|_]; last by apply: IH => r' Hr'; apply: Hl; right.
  exfalso. move/in_rangeP: Hin => /andP [Hin _]. by move: Hz; rewrite HZ // eqxx.
Qed.
Lemma search_ok s (S : 'M[R]_(p,q)) U V : sst s S U V -> block n S -> good S ->
  (smith_search div n s = Some None /\ forall (i : 'I_p) (j : 'I_q), (n <= i)%N -> (n <= j)%N -> S i j = 0) \/
  exists s' V' (S' : 'M[R]_(p,q)), [/\ smith_search div n s = Some (Some s'), sst s' S' U V', keeps S S', S' np nq != 0 & True].
Proof.
  move=> H B G. case: s H => [[u m] v] H. have [/= _ Hm _ _ _] := H. rewrite /smith_search.
  rewrite (repr_getE np nq Hm) /=. case: ifP => Hz; last first.
  { right. exists (u, m, v), V, S. split=> //. by apply/negP => /eqP Z; move: Hz; rewrite Z eqxx. }
  have Hz' : S np nq = 0 by apply/eqP; exact: Hz. rewrite (repr_cols Hm) PeanoNat.Nat.add_1_r.
  case: (@find_c_ok m S np Hm (range n.+1 q)) => [c /in_rangeP /andP [] //|f [/= -> Hf]] /=.
  case: f Hf => [c [Hin [Hc Hnz]]|Hf].
  - move/in_rangeP: Hin => /andP [Hin _]. have Hnc : nq != Ordinal Hc by rewrite eq_sym; exact: neq_c.
    have Ho := @swap_ok q nq (Ordinal Hc) Hnc.
    case: (@cols2 n _ _ _ _ nq (Ordinal Hc) _ 0 1 1 0 H B (leqnn _) (ltnW Hin) Ho); first by rewrite /opmx !valK.
    move=> s' [V' [S' [/= -> H' Hs Hd HS]]] /=. right. exists s', V', S'. split=> //. by rewrite HS eqxx mul0r add0r mul1r.
  - left. have HZ : forall (i : 'I_p) (j : 'I_q), (n <= i)%N -> (n <= j)%N -> S i j = 0.
    { case: G => // -[c Hc]. case: (eqVneq c nq) => [->|Hcn]; first by rewrite Hz' eqxx.
      rewrite Hf ?eqxx //. apply/in_rangeP. rewrite ltn_ord andbT ltn_neqAle Hc andbT. apply: contraNneq Hcn => Ec. by apply/eqP/val_inj. }
    split=> //. rewrite (repr_rows Hm) (@find_rc_ok m S Hm HZ) // => r /in_rangeP /andP [Hr1 Hr2]. by rewrite (ltnW Hr1).
Qed.
(* ---- making the pivot a favourite associate *)
Lemma unit_ok s (S : 'M[R]_(p,q)) U V : sst s S U V -> block n S -> S np nq != 0 ->
  exists s' U' (S' : 'M[R]_(p,q)), [/\ smith_unit div ffa n s = Some s', sst s' S' U' V, keeps S S' & pivot_ok S' np nq].
Proof.
  move=> H B Hz. case: s H => [[u m] v] H. have [/= _ Hm _ _ _] := H. rewrite /smith_unit. rewrite (repr_getE np nq Hm) /=.
  case Ef: (ffa (S np nq)) => [un av]. have [Ea Uu] := ffaP BZ (S np nq). rewrite Ef /= in Ea Uu. case: (inv_unit BZ Uu) => iu [-> Eiu] /=.
  have Ho : op_ok p (@UnitMul O n iu) by split=> //=; rewrite /opp_det /= Eiu unitrV.
  have OE : opmx p (@UnitMul O n iu) = E1 np iu. { rewrite /opmx -[n]/(nat_of_ord np) valK. by []. }
  case: (on_rows_ok H Ho) => s' [U' [-> H']]. rewrite OE in H'. exists s', U', (E1 np iu *m S). split=> //.
  - split.
    + move=> i j Hn. rewrite E1_mul. case: eqP => // Ei.
      have Z : S i j = 0. { apply: B => //. rewrite Ei /= in Hn *. move=> Ej. by move: Hn; rewrite -Ej ltnn. } by rewrite Z mul0r.
    + move=> x Hx i j Hi Hj. rewrite E1_mul. case: eqP => [Ei|_]; last exact: Hx. apply: dvd_mulr. exact: Hx.
  - rewrite /pivot_ok E1_mul eqxx. have -> : S np nq * iu = av. { rewrite {1}Ea Eiu mulrAC mulrV // mul1r. by []. }
    split; first by apply: contraNneq Hz => Z; rewrite Ea Z mulr0. have := ffa_norm BZ (S np nq). by rewrite Ef.
Qed.
(* ---- one turn of the outer loop *)
Arguments smith_search : simpl never.
Arguments smith_unit : simpl never.
Arguments smith_add_row : simpl never.
Arguments smith_fix : simpl never.
Arguments smith_zero_loop : simpl never.
Arguments Nat.ltb : simpl never.
Definition tail (ifuel fuel : nat) (s3 : st) : option (st * nat) :=
  let '(_, m3, _) := s3 in
  do x <- get m3 n n;
  if negb (@req O x 0) then
    do s4 <- forM (range (n + 1)%coq_nat (rows m3)) (smith_add_row div xgcd n) s3;
    do s5 <- forM (range (n + 1)%coq_nat (rows m3)) (smith_fix div n) s4;
    let '(_, m5, _) := s5 in
    do y <- get m5 n n;
    if @req O y 0 then Some (s5, n) else smith_loop div ffa xgcd ifuel fuel (n + 1)%coq_nat s5
  else None.
Lemma cross_block (S : 'M[R]_(p,q)) : block n S -> rowz S n q -> colz S n p -> block n.+1 S.
Proof.
  move=> B Rz Cz i j. rewrite !ltnS => Hn Hij. case Hlt: ((i < n)%N || (j < n)%N); first exact: B.
  move/negbT: Hlt. rewrite negb_or -!leqNgt => /andP [Hi Hj].
  case: (ltngtP i n) (Hi) => // Hin _.
  - have Hjn : (j <= n)%N by move: Hn; rewrite leqNgt Hin /=. have -> : j = nq by apply/val_inj/eqP; rewrite /= eqn_leq Hjn Hj. exact: Cz.
  - have Ei : i = np by apply/val_inj. rewrite Ei. apply: Rz => //. rewrite ltn_neqAle Hj andbT. apply/eqP => E. by apply: Hij; rewrite -E.
Qed.
Lemma tail_ok s3 (S3 : 'M[R]_(p,q)) U3 V3 : sst s3 S3 U3 V3 -> block n S3 -> rowz S3 n q -> colz S3 n p -> pivot_ok S3 np nq ->
  ((n.+2 < p)%N /\ forall ifuel fuel, tail ifuel fuel s3 = None) \/
  exists s5 U5 V5 (S5 : 'M[R]_(p,q)), [/\ sst s5 S5 U5 V5, keeps S3 S5, block n.+1 S5, pivot_ok S5 np nq /\ ((p <= n.+2)%N -> all_dvd (S5 np nq) n S5) &
     forall ifuel fuel, tail ifuel fuel s3 = smith_loop div ffa xgcd ifuel fuel n.+1 s5].
Proof.
  move=> H B Rz Cz P. case: (add_rows_ok H B Rz Cz P) => s4 [U4 [V4 [S4 [E4 H4 K4 R4 [N4 Hlast HD]]]]].
  case: s3 H E4 => [[u m] v] H E4. have [/= _ Hm _ _ _] := H. rewrite (repr_getE np nq Hm) /= (repr_rows Hm).
  rewrite (_ : (S3 np nq == 0) = false) /=; last by apply/negbTE; case: P. rewrite E4 /=.
  have B4 := same_block (proj1 K4) B.
  case E5: (forM _ (smith_fix div n) s4) => [s5|].
  - right. case: (@fix_partial s4 S4 U4 V4 s5 H4 B4 R4) => //.
    { move=> Hp. rewrite (Hlast Hp). by case: P. }
    move=> U5 [S5 [H5 K5 [Hz5 E5'] R5 C5]]. exists s5, U5, V4, S5. split=> //.
    + exact: keeps_trans K4 K5.
    + exact: (cross_block (same_block (proj1 K5) B4)).
    + rewrite /pivot_ok E5'. split=> // Hp. apply: (proj2 K5). by case: (HD Hp).
    + move=> ifuel fuel /=. case: s5 E5 H5 => [[u5 m5] v5] _ H5. have [/= _ Hm5 _ _ _] := H5. rewrite (repr_getE np nq Hm5) /= E5' PeanoNat.Nat.add_1_r.
      by rewrite (negbTE Hz5).
  - left. split=> //. rewrite ltnNge. apply/negP => Hp. case: (HD Hp) => Hz Hd.
    case: (fix_total H4 B4 R4 Hz Hd) => s5. by rewrite E5.
Qed.
Lemma body_ok s (S : 'M[R]_(p,q)) U V : sst s S U V -> block n S -> good S ->
  ((forall ifuel fuel, smith_loop div ffa xgcd ifuel fuel.+1 n s = Some (s, n)) /\ forall (i : 'I_p) (j : 'I_q), (n <= i)%N -> (n <= j)%N -> S i j = 0) \/
  exists s2 U2 V2 (S2 : 'M[R]_(p,q)), [/\ sst s2 S2 U2 V2, keeps S S2, pivot_ok S2 np nq &
    forall ifuel fuel, smith_loop div ffa xgcd ifuel fuel.+1 n s = do s3 <- smith_zero_loop div xgcd ifuel n true s2; tail ifuel fuel s3].
Proof.
  move=> H B G. have Hlt m' (M' : 'M[R]_(p,q)) : represents m' M' -> (PeanoNat.Nat.ltb n (rows m') && PeanoNat.Nat.ltb n (cols m')) = true.
  { move=> Hm'. rewrite (repr_rows Hm') (repr_cols Hm'). apply/andP; split; apply/PeanoNat.Nat.ltb_lt; exact/ltP. }
  case: (search_ok H B G) => [[Es HZ]|[s1 [V1 [S1 [Es H1 K1 Hz _]]]]].
  - left. split=> // ifuel fuel. case: s H Es => [[u m] v] H Es. have [/= _ Hm _ _ _] := H. by rewrite /= (Hlt _ _ Hm) Es.
  - right. case: (unit_ok H1 (same_block (proj1 K1) B) Hz) => s2 [U2 [S2 [E2 H2 K2 P2]]]. exists s2, U2, V1, S2. split=> //; first exact: keeps_trans K1 K2.
    move=> ifuel fuel. case: s H Es => [[u m] v] H Es. have [/= _ Hm _ _ _] := H. by rewrite /= (Hlt _ _ Hm) Es /= E2.
Qed.
Lemma turn_partial ifuel fuel s (S : 'M[R]_(p,q)) U V r : sst s S U V -> block n S -> good S -> smith_loop div ffa xgcd ifuel fuel.+1 n s = Some r ->
  (r = (s, n) /\ forall (i : 'I_p) (j : 'I_q), (n <= i)%N -> (n <= j)%N -> S i j = 0) \/
  exists s5 U5 V5 (S5 : 'M[R]_(p,q)), [/\ sst s5 S5 U5 V5, keeps S S5, block n.+1 S5, pivot_ok S5 np nq /\ ((p <= n.+2)%N -> all_dvd (S5 np nq) n S5) &
     smith_loop div ffa xgcd ifuel fuel n.+1 s5 = Some r].
Proof.
  move=> H B G. case: (body_ok H B G) => [[E HZ]|[s2 [U2 [V2 [S2 [H2 K2 P2 E]]]]]]; rewrite E; first by move=> [<-]; left.
  case E3: (smith_zero_loop _ _ _ _ _ _) => [s3|] //= Er. right.
  case: (zero_loop_partial H2 (same_block (proj1 K2) B) P2 _ E3) => // U3 [V3 [S3 [H3 K3 P3 C3 R3]]].
  case: (tail_ok H3 (same_block (proj1 K3) (same_block (proj1 K2) B)) R3 C3 P3) => [[_ E5]|[s5 [U5 [V5 [S5 [H5 K5 B5 P5 E5]]]]]]; rewrite E5 in Er => //.
  exists s5, U5, V5, S5. split=> //. exact: keeps_trans K2 (keeps_trans K3 K5).
Qed.
Lemma turn_total s (S : 'M[R]_(p,q)) U V : well_founded sdvd -> (p <= n.+2)%N -> sst s S U V -> block n S -> good S ->
  ((forall ifuel fuel, smith_loop div ffa xgcd ifuel fuel.+1 n s = Some (s, n)) /\ forall (i : 'I_p) (j : 'I_q), (n <= i)%N -> (n <= j)%N -> S i j = 0) \/
  exists s5 U5 V5 (S5 : 'M[R]_(p,q)), [/\ sst s5 S5 U5 V5, keeps S S5, block n.+1 S5, pivot_ok S5 np nq /\ all_dvd (S5 np nq) n S5 &
     exists f0, forall ifuel fuel, (f0 <= ifuel)%N -> smith_loop div ffa xgcd ifuel fuel.+1 n s = smith_loop div ffa xgcd ifuel fuel n.+1 s5].
Proof.
  move=> WF Hp H B G. case: (body_ok H B G) => [[E HZ]|[s2 [U2 [V2 [S2 [H2 K2 P2 E]]]]]]; [by left|right].
  have B2 := same_block (proj1 K2) B.
  case: (@zero_loop_total true s2 S2 U2 V2 (WF _) H2 B2 P2) => // f0 [s3 E3].
  case: (zero_loop_partial H2 B2 P2 _ (E3 f0 (leqnn _))) => // U3 [V3 [S3 [H3 K3 P3 C3 R3]]].
  case: (tail_ok H3 (same_block (proj1 K3) B2) R3 C3 P3) => [[Hp2 _]|[s5 [U5 [V5 [S5 [H5 K5 B5 [P5 D5] E5]]]]]]; first by move: (leq_trans Hp2 Hp); rewrite ltnn.
  exists s5, U5, V5, S5. split=> //; first exact: keeps_trans K2 (keeps_trans K3 K5); first by split=> //; exact: D5.
  exists f0 => ifuel fuel Hf. by rewrite E (E3 _ Hf) /= E5.
Qed.
End Fixed.
(* ---- the whole loop *)
Section Loop.
Variables (p q : nat) (A : 'M[R]_(p,q)).
Definition linv (n : nat) (S : 'M[R]_(p,q)) : Prop :=
  [/\ block n S, (forall (i : 'I_p) (j : 'I_q), i = j :> nat -> (i < n)%N -> S i j != 0 /\ snd (ffa (S i j)) = S i j),
      ((p <= 2)%N -> forall (i : 'I_p) (j : 'I_q), i = j :> nat -> (i < n)%N -> all_dvd (S i j) i S) & (n = 0%N -> S = A)].
Definition restz (n : nat) (S : 'M[R]_(p,q)) := forall (i : 'I_p) (j : 'I_q), (n <= i)%N -> (n <= j)%N -> S i j = 0.
Hypothesis Hgood : forall n (Hnp : (n < p)%N) (Hnq : (n < q)%N) (S : 'M[R]_(p,q)) U V, S = U *m A *m V -> U \in unitmx -> V \in unitmx -> block n S -> (n = 0%N -> S = A) -> good Hnp S.
Lemma linv_next n (Hnp : (n < p)%N) (Hnq : (n < q)%N) (S S5 : 'M[R]_(p,q)) : linv n S -> keeps n S S5 -> block n.+1 S5 ->
  pivot_ok S5 (Ordinal Hnp) (Ordinal Hnq) /\ ((p <= n.+2)%N -> all_dvd (S5 (Ordinal Hnp) (Ordinal Hnq)) n S5) -> linv n.+1 S5.
Proof.
  move=> [B D C _] [K1 K2] B5 [P5 D5]. split=> //.
  - move=> i j Eij. rewrite ltnS leq_eqVlt => /orP [/eqP Ei|Hi].
    + have -> : i = Ordinal Hnp by apply/val_inj. have -> : j = Ordinal Hnq by apply/val_inj; rewrite /= -Eij. exact: P5.
    + rewrite K1 ?Hi //. exact: D.
  - move=> Hp i j Eij. rewrite ltnS leq_eqVlt => /orP [/eqP Ei|Hi].
    + have -> : i = Ordinal Hnp by apply/val_inj. have -> : j = Ordinal Hnq by apply/val_inj; rewrite /= -Eij. apply: D5. exact: leq_trans Hp _.
    + rewrite K1 ?Hi // => i' j' Hi' Hj'. have H0 := C Hp i j Eij Hi. case Hn: ((i' < n)%N || (j' < n)%N); first by rewrite K1 //; exact: H0.
      move/negbT: Hn. rewrite negb_or -!leqNgt => /andP [H1 H2]. apply: K2 => // i2 j2 H3 H4. apply: H0; [exact: leq_trans (ltnW Hi) H3|exact: leq_trans (ltnW Hi) H4].
Qed.
Lemma loop_end ifuel fuel n s (S : 'M[R]_(p,q)) U V : sst A s S U V -> ~~ ((n < p)%N && (n < q)%N) -> smith_loop div ffa xgcd ifuel fuel n s = Some (s, n).
Proof.
  case: s => [[u m] v] [/= _ Hm _ _ _] Hn. case: fuel => [|fuel] /=; rewrite (repr_rows Hm) (repr_cols Hm);
  by rewrite (_ : (PeanoNat.Nat.ltb n p && PeanoNat.Nat.ltb n q) = false) //; apply/negbTE; apply: contra Hn => /andP [/PeanoNat.Nat.ltb_lt /ltP -> /PeanoNat.Nat.ltb_lt /ltP ->].
Qed.
Lemma minE n : (n <= minn p q)%N -> ~~ ((n < p)%N && (n < q)%N) -> n = minn p q.
Proof. rewrite -leq_min -leqNgt => H1 H2. apply/eqP. by rewrite eqn_leq H1. Qed.
Lemma end_res n (S : 'M[R]_(p,q)) : (n <= minn p q)%N -> ~~ ((n < p)%N && (n < q)%N) -> restz n S.
Proof.
  move=> H1 H2 i j Hi Hj. exfalso. move/negP: H2; apply. by rewrite (leq_ltn_trans Hi (ltn_ord i)) (leq_ltn_trans Hj (ltn_ord j)).
Qed.
Lemma loop_partial ifuel : forall fuel n s (S : 'M[R]_(p,q)) U V r, sst A s S U V -> (n <= minn p q)%N -> linv n S -> smith_loop div ffa xgcd ifuel fuel n s = Some r ->
  exists S' U' V', [/\ sst A r.1 S' U' V', (n <= r.2 <= minn p q)%N, linv r.2 S' & restz r.2 S'].
Proof.
  elim=> [|fuel IH] n s S U V r H Hn L E; case Hlt: ((n < p)%N && (n < q)%N).
  - exfalso. move: E. case: s H => [[u m] v] [/= _ Hm _ _ _]. rewrite (repr_rows Hm) (repr_cols Hm).
    rewrite (_ : (PeanoNat.Nat.ltb n p && PeanoNat.Nat.ltb n q) = true) //. move/andP: Hlt => [/ltP /PeanoNat.Nat.ltb_lt -> /ltP /PeanoNat.Nat.ltb_lt ->]. by [].
  - move/negbT: Hlt => Hlt. rewrite (loop_end _ _ H Hlt) in E. move: E => [<-]. exists S, U, V. split=> //=; [by rewrite leqnn|exact: end_res].
  - move/andP: Hlt => [Hnp Hnq]. have [B D C F] := L. have [_ _ _ ES /andP [HU HV]] := H.
    case: (turn_partial Hnq H B (Hgood Hnp Hnq ES HU HV B F) E) => [[-> HZ]|[s5 [U5 [V5 [S5 [H5 K5 B5 P5 E5]]]]]].
    + exists S, U, V. split=> //=. by rewrite leqnn.
    + case: (IH _ _ _ _ _ _ H5 _ _ E5); [by rewrite leq_min Hnp|exact: linv_next L K5 B5 P5|]. move=> S' [U' [V' [H' /andP [Hk1 Hk2] L' Z']]].
      exists S', U', V'. split=> //. by rewrite (ltnW Hk1).
  - move/negbT: Hlt => Hlt. rewrite (loop_end _ _ H Hlt) in E. move: E => [<-]. exists S, U, V. split=> //=; [by rewrite leqnn|exact: end_res].
Qed.
Lemma loop_total : well_founded sdvd -> (p <= 2)%N -> forall fuel n s (S : 'M[R]_(p,q)) U V, sst A s S U V -> (n <= minn p q)%N -> linv n S -> (p <= n + fuel)%N ->
  exists f0 r, forall ifuel, (f0 <= ifuel)%N -> smith_loop div ffa xgcd ifuel fuel n s = Some r.
Proof.
  move=> WF Hp. elim=> [|fuel IH] n s S U V H Hn L Hf; case Hlt: ((n < p)%N && (n < q)%N).
  - exfalso. move/andP: Hlt => [Hlt _]. by move: (leq_trans Hlt Hf); rewrite addn0 ltnn.
  - exists 0%N, (s, n) => ifuel _. apply: loop_end H _. by rewrite Hlt.
  - move/andP: Hlt => [Hnp Hnq]. have [B D C F] := L. have [_ _ _ ES /andP [HU HV]] := H.
    have Hp2 : (p <= n.+2)%N := leq_trans Hp (isT : (2 <= n.+2)%N).
    case: (turn_total Hnq WF Hp2 H B (Hgood Hnp Hnq ES HU HV B F)) => [[E HZ]|[s5 [U5 [V5 [S5 [H5 K5 B5 [P5 D5] [f0 E5]]]]]]].
    + exists 0%N, (s, n) => ifuel _. exact: E.
    + case: (IH n.+1 s5 S5 U5 V5 H5); [by rewrite leq_min Hnp|exact: (linv_next L K5 B5 (conj P5 (fun _ => D5)))|by rewrite addSnnS|].
      move=> f1 [r Er]. exists (maxn f0 f1), r => ifuel. rewrite geq_max => /andP [H0 H1]. by rewrite E5 // Er.
  - exists 0%N, (s, n) => ifuel _. apply: loop_end H _. by rewrite Hlt.
Qed.
Lemma linv_form k (S : 'M[R]_(p,q)) : (p <= 2)%N -> (k <= minn p q)%N -> linv k S -> restz k S -> smith_form ffa S k.
Proof.
  move=> Hp Hk [B D C _] Z. split=> //.
  - move=> i j Hij. case Hn: ((i < k)%N || (j < k)%N); first exact: B. move/negbT: Hn. rewrite negb_or -!leqNgt => /andP [H1 H2]. exact: Z.
  - move=> i j Eij. case: (ltnP i k) => Hi; first by have [-> ->] := D i j Eij Hi.
    have Z0 : S i j = 0 by apply: Z => //; rewrite -Eij. by rewrite Z0 eqxx (ffa0 BZ).
  - move=> i i' j j' Eij Eij' Ei'. case: (ltnP i k) => Hi.
    + apply: (C Hp i j Eij Hi); by rewrite -?Eij' Ei'.
    + exists 0. rewrite mul0r. apply: Z; rewrite -?Eij' Ei'; exact: leqW.
Qed.
Lemma linv0 : linv 0 A. Proof. by split. Qed.
Lemma start m : represents m A -> exists u v, [/\ @ident O (rows m) = Some u, @ident O (cols m) = Some v & sst A (u, m, v) A 1%:M 1%:M].
Proof.
  move=> Hm. rewrite (repr_rows Hm) (repr_cols Hm). case: (ident_repr R p) => u [-> Hu]. case: (ident_repr R q) => v [-> Hv].
  exists u, v. split=> //. split=> //=; first by rewrite mul1mx mulmx1. by rewrite !unitmx1.
Qed.
End Loop.

(* full row rank: every row of U A V has a nonzero entry *)
Lemma full_rank_row p q (A S : 'M[R]_(p,q)) U V : frac_rank A = p -> S = U *m A *m V -> U \in unitmx -> V \in unitmx -> forall i, exists j, S i j != 0.
Proof.
  move=> HA ES HU HV i. case: (pickP (fun j => S i j != 0)) => [j Hj|Hno]; first by exists j. exfalso.
  have HS : frac_rank S = p.
  { have HT : forall p' q' (M : 'M[R]_(p',q')), frac_rank M^T = frac_rank M by move=> p' q' M; rewrite /frac_rank -map_trmx mxrank_tr.
    by rewrite ES -HT trmx_mul frac_rank_unit ?unitmx_tr // HT frac_rank_unit. }
  have /row_freeP [B HB] : row_free (map_mx (@FracField.tofrac R) S) by rewrite /row_free -/(frac_rank S) HS.
  have := congr1 (fun M : 'M_p => M i i) HB. rewrite /= !mxE eqxx big1 => [E|j _]; last first.
  { move/negbT: (Hno j). rewrite negbK mxE => /eqP ->. by rewrite rmorph0 mul0r. }
  by move/eqP: E; rewrite eq_sym oner_eq0.
Qed.
Lemma smith_full_rank p q (A : 'M[R]_(p,q)) m ifuel u s v k : represents m A -> frac_rank A = p -> smith_algorithm div ffa xgcd ifuel m = Some (u, s, v, k) ->
  exists U S V, [/\ represents u U, represents s S, represents v V, [/\ S = U *m A *m V, U \in unitmx & V \in unitmx] &
    [/\ k = p, (p <= q)%N, forall (i : 'I_p) (j : 'I_q), (i : nat) <> j -> S i j = 0 & forall (i : 'I_p) (j : 'I_q), i = j :> nat -> S i j != 0 /\ snd (ffa (S i j)) = S i j]].
Proof.
  move=> Hm HA. case: (start Hm) => u0 [v0 [E1 E2 H0]]. rewrite /smith_algorithm E1 E2 /=.
  case E: (smith_loop _ _ _ _ _ _ _) => [[[[u1 s1] v1] k1]|] //= [<- <- <- <-].
  have G : forall n (Hnp : (n < p)%N) (Hnq : (n < q)%N) (S : 'M[R]_(p,q)) U V, S = U *m A *m V -> U \in unitmx -> V \in unitmx -> block n S -> (n = 0%N -> S = A) -> good Hnp S.
  { move=> n Hnp Hnq S U V ES HU HV B _. left. case: (full_rank_row HA ES HU HV (Ordinal Hnp)) => j Hj. exists j => //.
    rewrite leqNgt. apply/negP => Hjn. move: Hj. rewrite B ?eqxx //=; first by rewrite Hjn orbT. move=> Ej. by move: Hjn; rewrite -Ej ltnn. }
  case: (loop_partial G H0 (leq0n _) (linv0 A) E) => S [U [V [[/= Hu Hs Hv ES /andP [HU HV]] Hk [B D _ _] Z]]].
  have Ek : k1 = p.
  { apply/eqP. rewrite eqn_leq. move: (Hk). rewrite leq_min => /andP [-> _] /=. rewrite leqNgt. apply/negP => Hlt.
    case: (full_rank_row HA ES HU HV (Ordinal Hlt)) => j. case: (ltnP j k1) => Hj; last by rewrite Z ?eqxx.
    rewrite B ?eqxx //=; first by rewrite Hj orbT. move=> Ej. by move: Hj; rewrite -Ej ltnn. }
  subst k1. exists U, S, V. split=> //. split=> //.
  - move: Hk. by rewrite leq_min leqnn.
  - move=> i j Hij. apply: B => //. by rewrite ltn_ord.
  - move=> i j Hij. exact: D.
Qed.
Lemma smith_two_rows p q (A : 'M[R]_(p,q)) m : well_founded sdvd -> represents m A -> (p <= 2)%N ->
  (forall i : 'I_p, i = 0%N :> nat -> (exists j, A i j != 0) \/ A = 0) ->
  exists f0 u s v k U S V, [/\ (forall ifuel, (f0 <= ifuel)%N -> smith_algorithm div ffa xgcd ifuel m = Some (u, s, v, k)),
    [/\ represents u U, represents s S & represents v V], [/\ S = U *m A *m V, U \in unitmx & V \in unitmx] & smith_form ffa S k].
Proof.
  move=> WF Hm Hp HF. case: (start Hm) => u0 [v0 [E1 E2 H0]].
  have G : forall n (Hnp : (n < p)%N) (Hnq : (n < q)%N) (S : 'M[R]_(p,q)) U V, S = U *m A *m V -> U \in unitmx -> V \in unitmx -> block n S -> (n = 0%N -> S = A) -> good Hnp S.
  { move=> n Hnp Hnq S U V _ _ _ _ F. case: n Hnp Hnq F => [|n] Hnp Hnq F.
    - rewrite (F erefl). case: (HF (Ordinal Hnp) erefl) => [[j Hj]|->]; [by left; exists j|right=> i j _ _]. by rewrite mxE.
    - case: (pickP (fun j : 'I_q => (n < j)%N && (S (Ordinal Hnp) j != 0))) => [j /andP [Hj1 Hj2]|Hno]; [by left; exists j|right].
      move=> i j Hi Hj. have -> : i = Ordinal Hnp. { apply/val_inj/eqP. rewrite /= eqn_leq Hi andbT. have := leq_trans (ltn_ord i) Hp. rewrite ltnS => Hi2. exact: leq_trans Hi2 _. }
      move/negbT: (Hno j). by rewrite Hj /= negbK => /eqP. }
  case: (loop_total G WF Hp H0 (leq0n _) (linv0 A) (leqnn (0 + p)%N)) => f0 [[[[u s] v] k] E].
  case: (loop_partial G H0 (leq0n _) (linv0 A) (E f0 (leqnn _))) => S [U [V [[/= Hu Hs Hv ES /andP [HU HV]] Hk L Z]]].
  exists f0, u, s, v, k, U, S, V. split=> //.
  - move=> ifuel Hf. by rewrite /smith_algorithm E1 E2 /= (repr_rows Hm) E.
  - exact: (@linv_form p q A).
Qed.
(* proper divisibility is well founded in a Euclidean domain whose norm does not drop on multiples *)
Lemma euclid_wf (norm : R -> option N) (quorem : R -> R -> option (R * R)) : euclid_laws O norm quorem -> norm_mono O norm -> well_founded sdvd.
Proof.
  move=> EL NM. have N0 (b : R) : b != 0 -> exists n, norm b = Some n.
  { move=> Hb. case E: (norm b) => [n|]; first by exists n. have /= := proj1 (norm_zero _ _ _ EL b) E. by rewrite (negbTE Hb). }
  have Hlt (a b : R) na nb : b != 0 -> a != 0 -> sdvd a b -> norm a = Some na -> norm b = Some nb -> (na < nb)%num.
  { move=> Hb Ha [[c Hc] Hnd] Ea Eb. case Eq: (quorem a b) => [[x r]|]; last by have /= := proj1 (quorem_zero _ _ _ EL a b) Eq; rewrite (negbTE Hb).
    have /= /eqP Er := quorem_ok _ _ _ EL _ _ _ _ Eq. have Hr : r != 0. { apply/eqP => Z. apply: Hnd. exists x. by rewrite Er Z addr0. }
    case: (N0 _ Hr) => k Ek. have Hk := quorem_lt _ _ _ EL _ _ _ _ _ _ Eq Eb Ek.
    have Hr' : r = a * (1 - x * c). { rewrite mulrBr mulr1 {1}Er Hc. by rewrite [a * _]mulrC -!mulrA addrAC subrr add0r. }
    refine (BinNat.N.le_lt_trans _ _ _ (NM a (1 - x * c) r na k _ Ea Ek) Hk). have H : r == a * (1 - x * c) by apply/eqP. exact H. }
  have HA : forall n (b : R), b != 0 -> forall nb, norm b = Some nb -> (N.to_nat nb < n)%N -> Acc sdvd b.
  { elim=> [|n IH] b Hb nb Eb Hn; first by exfalso; move: Hn; rewrite ltn0. constructor => a Hab. have Ha : a != 0. { apply/eqP => Z. move: Hab => [[c Hc] _]. by move: Hb; rewrite Hc Z mulr0 eqxx. }
    case: (N0 _ Ha) => na Ea. apply: (IH a Ha na Ea). have := Hlt _ _ _ _ Hb Ha Hab Ea Eb. move=> H.
    have H' : (N.to_nat na < N.to_nat nb)%N. { apply/ltP. clear - H. lia. } exact: leq_trans H' Hn. }
  have HA' (b : R) : b != 0 -> Acc sdvd b. { move=> Hb. case: (N0 _ Hb) => nb Eb. exact: HA Hb _ Eb (ltnSn _). }
  move=> b. case: (eqVneq b 0) => [->|]; last exact: HA'. constructor => a [_ Hn]. apply: HA'. apply/eqP => Z. apply: Hn. rewrite Z. exact: dvd0.
Qed.
End Smith.
