(* Linear algebra over a Bezout domain used by the lattice code *)
From Coq Require Import NArith.
From mathcomp Require Import all_ssreflect all_algebra all_fingroup.
From Coq Require Import Lia.
From Verif Require Import RingSpec RingModel RingProofs PermModel MatModel MatSpec MatProofs MatProofs2 MatProofs3 MatProofs5 MatProofs6 MatProofs7 LatModel LatSpec.
Close Scope rs_scope.
Set Implicit Arguments.
Unset Strict Implicit.
Unset Printing Implicit Defensive.
Import GRing.Theory.
Local Open Scope ring_scope.

Lemma nat_div (a b : nat) : Nat.div a b = (a %/ b)%N.
Proof.
  case: b => [|b]; first by rewrite divn0. symmetry. apply: (PeanoNat.Nat.div_unique _ _ _ (a %% b.+1)%N).
  - apply/ltP. exact: ltn_mod.
  - by rewrite {1}(divn_eq a b.+1) mulnC.
Qed.
Lemma nat_mod (a b : nat) : (0 < b)%N -> Nat.modulo a b = (a %% b)%N.
Proof.
  case: b => [|b] // _. symmetry. apply: (PeanoNat.Nat.mod_unique _ _ (a %/ b.+1)%N).
  - apply/ltP. exact: ltn_mod.
  - by rewrite {1}(divn_eq a b.+1) mulnC.
Qed.

Section Span.
Variable R : idomainType.
Definition rspan k n (B : 'M[R]_(k, n)) (x : 'rV[R]_n) : Prop := exists c : 'rV[R]_k, x = c *m B.
Definition rfree k n (B : 'M[R]_(k, n)) : Prop := forall c : 'rV[R]_k, c *m B = 0 -> c = 0.
Lemma rspan_mul k p n (E : 'M[R]_(k,p)) (B : 'M[R]_(p,n)) x : rspan (E *m B) x -> rspan B x.
Proof. move=> [c ->]. exists (c *m E). by rewrite mulmxA. Qed.
Lemma rank_rfree k n (B : 'M[R]_(k, n)) : frac_rank B = k -> rfree B.
Proof.
  move=> H c Hc. have Hf : row_free (map_mx (@FracField.tofrac R) B) by rewrite /row_free -/(frac_rank B) H.
  have E : map_mx (@FracField.tofrac R) c *m map_mx (@FracField.tofrac R) B = 0 by rewrite -map_mxM Hc map_mx0.
  have : map_mx (@FracField.tofrac R) c = 0. { apply: (row_free_inj Hf). by rewrite E mul0mx. }
  move=> E0. apply/matrixP => i j. have := congr1 (fun M : 'M_(_,_) => M i j) E0. rewrite /= !mxE => /eqP. by rewrite tofrac_eq0 => /eqP.
Qed.
(* the flattened family *)
Section Flat.
Variables p q : nat.
Lemma idx_lt (i : 'I_p) (j : 'I_q) : (i * q + j < p * q)%N.
Proof. apply: (@leq_trans (i * q + q)); first by rewrite ltn_add2l. by rewrite -mulSnr leq_mul2r ltn_ord orbT. Qed.
Definition fl (M : 'M[R]_(p,q)) : 'rV[R]_(p * q) := \row_n M (Ordinal (row_lt n)) (Ordinal (col_lt n)).
Definition unfl (v : 'rV[R]_(p * q)) : 'M[R]_(p,q) := \matrix_(i, j) v 0 (Ordinal (idx_lt i j)).
Lemma flK M : unfl (fl M) = M.
Proof.
  apply/matrixP => i j. have Hq : (0 < q)%N := leq_ltn_trans (leq0n _) (ltn_ord j).
  rewrite !mxE. congr (M _ _); apply/val_inj => /=; first by rewrite divnMDl // divn_small ?addn0. by rewrite modnMDl modn_small.
Qed.
Lemma unflK v : fl (unfl v) = v.
Proof. apply/rowP => n. rewrite !mxE. congr (v _ _). apply/val_inj => /=. by rewrite -divn_eq. Qed.
Lemma fl_inj M N : fl M = fl N -> M = N. Proof. move=> H. by rewrite -[M]flK H flK. Qed.
Lemma fl0 : fl 0 = 0. Proof. apply/rowP => n. by rewrite !mxE. Qed.
Lemma flD M N : fl (M + N) = fl M + fl N. Proof. apply/rowP => n. by rewrite !mxE. Qed.
Lemma row_flat k (Bs : 'I_k -> 'M[R]_(p,q)) i : row i (flat Bs) = fl (Bs i). Proof. apply/rowP => n. by rewrite !mxE. Qed.
Lemma fl_comb k (Bs : 'I_k -> 'M[R]_(p,q)) (c : 'I_k -> R) : fl (\sum_i c i *: Bs i) = (\row_i c i) *m flat Bs.
Proof. apply/rowP => n. rewrite !mxE summxE. apply: eq_bigr => i _. by rewrite !mxE. Qed.
Lemma lspan_flat k (Bs : 'I_k -> 'M[R]_(p,q)) M : lspan Bs M <-> rspan (flat Bs) (fl M).
Proof.
  split=> [[c ->]|[c Hc]]; first by exists (\row_i c i); rewrite fl_comb.
  exists (fun i => c 0 i). apply: fl_inj. rewrite fl_comb Hc. congr (_ *m _). apply/rowP => i. by rewrite mxE.
Qed.
Lemma indep_flat k (Bs : 'I_k -> 'M[R]_(p,q)) : independent Bs <-> rfree (flat Bs).
Proof.
  split=> H c.
  - move=> Hc. apply/rowP => i. rewrite mxE. apply: (H (fun i => c 0 i)). apply: fl_inj. rewrite fl_comb fl0 -Hc. congr (_ *m _). apply/rowP => j. by rewrite mxE.
  - move=> Hc i. have := H (\row_i c i). rewrite -fl_comb Hc fl0 => /(_ erefl) /rowP /(_ i). by rewrite !mxE.
Qed.
(* any meta matrix is the flattening of its rows *)
Definition fam k (T : 'M[R]_(k, p * q)) (i : 'I_k) : 'M[R]_(p,q) := unfl (row i T).
Lemma flat_fam k (T : 'M[R]_(k, p * q)) : flat (fam T) = T.
Proof. apply/row_matrixP => i. by rewrite row_flat unflK. Qed.
End Flat.
End Span.

Section Hermite.
Variable R : idomainType.
Notation O := (mc_ops R).
Notation mat := (matrix (T O)).
Variable div : div_op O.
Variable ffa : ffa_op O.
Variable xgcd : R -> R -> R * R * R.
Hypothesis BZ : bezout_laws div ffa xgcd.
Notation hermite := (row_hermite_algorithm div ffa xgcd).

(* the echelon form split in its nonzero rows and the rest, and the transformation matrix accordingly *)
Lemma echelon_split k m q (A H : 'M[R]_(k + m, q)) (U : 'M[R]_(k + m)) pivs : size pivs = k -> H = U *m A -> U \in unitmx -> echelon ffa H pivs ->
  [/\ rfree (usubmx H), (forall x, rspan (usubmx H) x <-> rspan A x), rfree (dsubmx U) & forall c, rspan (dsubmx U) c <-> c *m A = 0].
Proof.
  move=> Hk EH HU He. have HE := He. move: HE => [Hs Hk' Hq Hl [Hn Hz]].
  have EHd : H = col_mx (usubmx H) 0. { rewrite -[LHS]vsubmxK. congr col_mx. apply/matrixP => i j. rewrite !mxE. apply: Hz. by rewrite Hk /= leq_addr. }
  have HT : rfree (usubmx H).
  { apply: rank_rfree. rewrite -[in RHS]Hk. apply: (@echelon_rank _ ffa). split=> //; rewrite ?Hk //.
    - move=> i j Hi Hj. rewrite mxE. apply: Hl => //=. by rewrite Hk.
    - split=> i j Hi; [move=> Hj; rewrite mxE; apply: Hn => //=; by rewrite Hk|]. by move: (leq_trans (ltn_ord i) Hi); rewrite ltnn. }
  have HA : A = invmx U *m H by rewrite EH mulKmx.
  split=> //.
  - move=> x. split=> [[c ->]|[c ->]].
    + exists (row_mx c 0 *m U). by rewrite -mulmxA -EH [in RHS]EHd mul_row_col mul0mx addr0.
    + exists (lsubmx (c *m invmx U)). rewrite HA mulmxA {1}EHd -{1}[c *m invmx U]hsubmxK mul_row_col mulmx0 addr0. by [].
  - move=> c Hc. have : row_mx (0 : 'rV[R]_k) c *m U = 0 by rewrite -[U]vsubmxK mul_row_col Hc mul0mx addr0.
    move=> /(congr1 (fun x => x *m invmx U)). rewrite mulmxK // mul0mx => /(congr1 rsubmx). by rewrite row_mxKr raddf0.
  - move=> c. split=> [[d ->]|Hc].
    + have -> : d *m dsubmx U = row_mx 0 d *m U by rewrite -{2}[U]vsubmxK mul_row_col mul0mx add0r.
      by rewrite -mulmxA -EH EHd mul_row_col mul0mx mulmx0 addr0.
    + have HcH : (c *m invmx U) *m H = 0 by rewrite EH mulmxA mulmxKV.
      have Hl0 : lsubmx (c *m invmx U) = 0. { apply: HT. move: HcH. by rewrite {1}EHd -{1}[c *m invmx U]hsubmxK mul_row_col mulmx0 addr0. }
      exists (rsubmx (c *m invmx U)). rewrite -[LHS](mulmxKV HU) -{1}[c *m invmx U]hsubmxK Hl0 -{2}[U]vsubmxK mul_row_col mul0mx add0r. by [].
Qed.
Lemma echelon_split' p q k m0 (Hk : (k <= p)%N) (Ep : (k + m0)%N = p) (A H : 'M[R]_(p, q)) (U : 'M[R]_p) pivs : size pivs = k -> H = U *m A -> U \in unitmx -> echelon ffa H pivs ->
  [/\ rfree (\matrix_(i < k, j < q) H (widen_ord Hk i) j), (forall x, rspan (\matrix_(i < k, j < q) H (widen_ord Hk i) j) x <-> rspan A x),
     rfree (\matrix_(i < m0, j < p) U (cast_ord Ep (rshift k i)) j) & forall c, rspan (\matrix_(i < m0, j < p) U (cast_ord Ep (rshift k i)) j) c <-> c *m A = 0].
Proof.
  subst p => Es EH HU He. case: (echelon_split Es EH HU He) => S1 S2 S3 S4.
  have E1 : \matrix_(i < k, j < q) H (widen_ord Hk i) j = usubmx H. { apply/matrixP => i j. rewrite !mxE. congr (H _ _). exact/val_inj. }
  have E2 : \matrix_(i < m0, j < (k + m0)%N) U (cast_ord (erefl (k + m0)%N) (rshift k i)) j = dsubmx U. { apply/matrixP => i j. rewrite !mxE. congr (U _ _). exact/val_inj. }
  by rewrite E1 E2.
Qed.
Lemma nth_range a b i : (i < b - a)%N -> List.nth i (range a b) 0%N = (a + i)%N.
Proof. move=> H. rewrite /range List.seq_nth //. exact/ltP. Qed.
Lemma sub_rows p q (m : mat) (M : 'M[R]_(p,q)) k (Hk : (k <= p)%N) : represents m M ->
  exists t, submatrix m (range 0 k) (range 0 q) = Some t /\ represents t (\matrix_(i < k, j < q) M (widen_ord Hk i) j).
Proof.
  move=> Hm. apply: (@submatrix_repr _ p q m M _ _ k q (widen_ord Hk) id Hm).
  - by rewrite range_length /= PeanoNat.Nat.sub_0_r.
  - by rewrite range_length /= PeanoNat.Nat.sub_0_r.
  - move=> i. by rewrite nth_range ?subn0 //= ltn_ord.
  - move=> i. by rewrite nth_range ?subn0 //= ltn_ord.
Qed.
Lemma sub_one_row p q (m : mat) (M : 'M[R]_(p,q)) (i : 'I_p) : represents m M ->
  exists t, submatrix m [:: nat_of_ord i] (range 0 q) = Some t /\ represents t (row i M).
Proof.
  move=> Hm. case: (@submatrix_repr _ p q m M [:: nat_of_ord i] (range 0 q) 1 q (fun _ => i) id Hm) => //.
  - by rewrite range_length /= PeanoNat.Nat.sub_0_r.
  - move=> i0. by rewrite ord1.
  - move=> j. by rewrite nth_range ?subn0 //= ltn_ord.
  - move=> t [E Ht]. by exists t.
Qed.
Lemma hermite_ok p q m (A : 'M[R]_(p,q)) : represents m A -> exists h u ud pivs t (TT : 'M[R]_(size pivs, q)) (K : 'M[R]_(p - size pivs, p)),
  [/\ hermite m = Some (h, u, ud, pivs), submatrix h (range 0 (length pivs)) (range 0 q) = Some t /\ represents t TT, (size pivs <= p)%N /\ frac_rank A = size pivs,
      (exists2 U : 'M[R]_p, represents u U & forall i : 'I_(p - size pivs), exists j : 'I_p, j = (size pivs + i)%N :> nat /\ row i K = row j U) &
      [/\ rfree TT, (forall x, rspan TT x <-> rspan A x), rfree K & forall c, rspan K c <-> c *m A = 0]].
Proof.
  move=> Hm. case: (row_hermite_ok BZ Hm) => h [u [ud [pivs [H [U [E Hh Hu [EH Eud HU] He]]]]]].
  have Hk : (size pivs <= p)%N by case: He.
  have Hrk : frac_rank A = size pivs by rewrite -(echelon_rank He) EH frac_rank_unit.
  move: (subnKC Hk) => Ep. 
  case: (sub_rows Hk Hh) => t [Et Ht].
  have Hsp := echelon_split' Hk Ep (erefl _) EH HU He.
  exists h, u, ud, pivs, t, (\matrix_(i < size pivs, j < q) H (widen_ord Hk i) j), (\matrix_(i < p - size pivs, j < p) U (cast_ord Ep (rshift (size pivs) i)) j). split=> //.
  exists U => // i. exists (cast_ord Ep (rshift (size pivs) i)). split=> //. by apply/matrixP => a b; rewrite !mxE.
Qed.
(* linear independence of the rows = full rank *)
Lemma rfree_rank k n (B : 'M[R]_(k,n)) m : represents m B -> (rfree B <-> frac_rank B = k).
Proof.
  move=> Hm. split; last exact: rank_rfree. case: (hermite_ok Hm) => h [u [ud [pivs [t [TT [K [_ _ [Hk ->] _ [_ _ HK1 HK2]]]]]]]] HB.
  apply/eqP. rewrite eqn_leq Hk leqNgt. apply/negP => Hlt. have H0 : (0 < k - size pivs)%N by rewrite subn_gt0.
  pose e : 'rV[R]_(k - size pivs) := delta_mx 0 (Ordinal H0). have E : e *m K = 0 by apply: HB; apply/HK2; exists e.
  have := HK1 _ E. move/rowP => /(_ (Ordinal H0)). rewrite !mxE !eqxx /= => /eqP. by rewrite oner_eq0.
Qed.
Lemma rfree_repr k n (B : 'M[R]_(k,n)) : rfree B <-> frac_rank B = k.
Proof.
  case: (@construct_repr R k n (fun i j => Some (mxf B i j)) B) => [i j|m [_ Hm]]; first by rewrite mxfE. exact: rfree_rank Hm.
Qed.
End Hermite.
