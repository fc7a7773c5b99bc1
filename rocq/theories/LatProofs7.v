(* extension_basis: the pivot rows of the column echelon form *)
From Coq Require Import NArith.
From mathcomp Require Import all_ssreflect all_algebra all_fingroup.
From Coq Require Import Lia.
From Verif Require Import RingSpec RingModel RingProofs PermModel MatModel MatSpec MatViewSpec MatProofs MatProofs2 MatProofs3 MatProofs5 MatProofs6 MatProofs7 MatProofs8 LatModel LatSpec LatLoops LatProofs LatProofs2 LatProofs3 LatProofs4.
Close Scope rs_scope.
Set Implicit Arguments.
Unset Strict Implicit.
Unset Printing Implicit Defensive.
Import GRing.Theory.
Local Open Scope ring_scope.

From Verif Require Import LatProofs5 LatProofs6 MatProofs7.
Section Bez.
Variable R : idomainType.
Notation O := (mc_ops R).
Notation mat := (matrix (T O)).
Notation fr := (map_mx (@FracField.tofrac R)).
Variable div : div_op O.
Variable ffa : ffa_op O.
Variable xgcd : R -> R -> R * R * R.
Hypothesis BZ : bezout_laws div ffa xgcd.
(* a vector in the span over the field of fractions has a nonzero multiple in the span *)
Lemma rs_out k n (B : 'M[R]_(k,n)) (v : 'rV[R]_n) : rfree B -> (fr v <= fr B)%MS -> exists r, r != 0 /\ rspan B (r *: v).
Proof.
  move=> HB Hv. case: (@construct_repr R (k + 1) n (fun i j => Some (mxf (col_mx B v) i j)) (col_mx B v)) => [i j|m [_ Hm]]; first by rewrite mxfE.
  case: (hermite_ok BZ Hm) => h [u [ud [pivs [t [TT [K [_ _ [Hk Hr] _ [_ _ HK1 HK2]]]]]]]].
  have Hs : (size pivs <= k)%N.
  { rewrite -Hr /frac_rank map_col_mx -addsmxE. move/addsmx_idPl: Hv => ->. exact: rank_leq_row. }
  have H0 : (0 < k + 1 - size pivs)%N by rewrite subn_gt0 addn1 ltnS.
  pose e : 'rV[R]_(k + 1 - size pivs) := delta_mx 0 (Ordinal H0). pose c := e *m K.
  have Ec : c *m col_mx B v = 0 by apply/HK2; exists e.
  have Hc : c <> 0. { move=> /HK1 /rowP /(_ (Ordinal H0)). rewrite !mxE !eqxx => /eqP. by rewrite oner_eq0. }
  move: Ec. rewrite -[c]hsubmxK mul_row_col [rsubmx c]mx11_scalar mul_scalar_mx => E. set r := rsubmx c 0 0 in E.
  case: (eqVneq r 0) => Er.
  - case: Hc. rewrite -[c]hsubmxK [rsubmx c]mx11_scalar -/r Er raddf0. move: E. rewrite Er scale0r addr0 => /HB ->. by rewrite row_mx0.
  - exists r. split=> //. exists (- lsubmx c). rewrite mulNmx. apply/eqP. by rewrite -addr_eq0 addrC E.
Qed.
(* the rows at the pivots of a column echelon form *)
Lemma pivot_rows s n (H : 'M[R]_(s,n)) pivs : echelon ffa H^T pivs -> forall w : 'rV[R]_s, (forall i : 'I_s, (i : nat) \notin pivs -> w 0 i = 0) -> w *m H = 0 -> w = 0.
Proof.
  move=> [Hs Hk Hq Hl [Hn Hz]] w Hw E. set m := size pivs in Hk Hl Hn Hz.
  have Hp (i : 'I_m) : (nth 0%N pivs i < s)%N by apply: Hq; rewrite mem_nth.
  pose f (i : 'I_m) : 'I_s := Ordinal (Hp i). have Hu : uniq pivs by apply: sorted_uniq Hs; [exact: ltn_trans|exact: ltnn].
  have finj : injective f by move=> i j /(congr1 val) /= /eqP; rewrite nth_uniq // => /eqP/val_inj.
  pose H' := \matrix_(i < m, j < n) H (f i) j. 
  have Emono (i j : nat) : (i < j)%N -> (j < m)%N -> (nth 0%N pivs i < nth 0%N pivs j)%N by move=> Hi Hj; apply: (sorted_ltn_nth ltn_trans 0%N Hs) => //; rewrite inE // (ltn_trans Hi).
  have Hech : echelon ffa H'^T (iota 0 m).
  { split; rewrite ?size_iota //; first exact: iota_ltn_sorted.
    - move=> x. by rewrite mem_iota add0n => /andP[].
    - move=> i j Hi. rewrite nth_iota // add0n !mxE => Hj. have Hij := Emono _ _ Hj Hi. move: (Hl i (f j) Hi Hij). by rewrite mxE.
    - split=> i j Hi; last by rewrite !mxE; have := Hz i (f j) Hi; rewrite mxE. rewrite nth_iota // add0n !mxE => Hj. have Hij : f j = nth 0%N pivs i :> nat by rewrite /= Hj. move: (Hn i (f j) Hi Hij). by rewrite mxE. }
  have /(rank_rfree (B := H')) HF : frac_rank H' = m by rewrite /frac_rank -mxrank_tr map_trmx; move: (echelon_rank Hech); rewrite size_iota.
  have E' : (\row_i w 0 (f i)) *m H' = 0.
  { apply/rowP => j. move/rowP: E => /(_ j). rewrite !mxE => {2}<-. rewrite (bigID (fun i : 'I_s => (i : nat) \in pivs)) /= [X in _ = _ + X]big1 ?addr0; last by move=> i /Hw ->; rewrite mul0r.
    rewrite (reindex_omap f (fun i => insub (index (i : nat) pivs))) /=.
    - apply: eq_big => [i|i _]; last by rewrite !mxE. by rewrite mem_nth //= index_uniq // valK eqxx.
    - move=> i Hi. have Hx : (index (i : nat) pivs < m)%N by rewrite index_mem. rewrite (insubT (fun x => x < m)%N Hx) /=. congr Some. apply: val_inj. by rewrite /= nth_index. }
  apply/rowP => i. rewrite mxE. case Hi: ((i : nat) \in pivs); last by apply: Hw; rewrite Hi. have Hx : (index (i : nat) pivs < m)%N by rewrite index_mem.
  move/rowP: (HF _ E') => /(_ (Ordinal Hx)). rewrite !mxE. suff -> : f (Ordinal Hx) = i by []. apply: val_inj. by rewrite /= nth_index.
Qed.

Lemma sorted_split (k : nat) s : sorted ltn s -> s = [seq i <- s | (i < k)%N] ++ [seq i <- s | (k <= i)%N].
Proof.
  elim: s => [|x s IH] //= Hp. have Hs := path_sorted Hp. case: (ltnP x k) => Hx /=; first by congr (_ :: _); exact: IH.
  have Ha := order_path_min ltn_trans Hp. have E1 : [seq i <- s | (i < k)%N] = [::].
  { apply/eqP. rewrite -(negbK (_ == _)) -has_filter -all_predC. apply: sub_all Ha => i /= Hi. rewrite -leqNgt. exact: leq_trans Hx (ltnW Hi). }
  rewrite E1 /=. congr (_ :: _). symmetry. apply/all_filterP. apply: sub_all Ha => i /= Hi. exact: leq_trans Hx (ltnW Hi).
Qed.
Lemma prefix_pivots k m n (H : 'M[R]_(k + m, n)) pivs : echelon ffa H^T pivs -> rfree (usubmx H) -> [seq i <- pivs | (i < k)%N] = iota 0 k.
Proof.
  move=> [Hs Hk Hq Hl [Hn Hz]] /(rfree_repr BZ) Hr. set L := [seq i <- pivs | (i < k)%N]. set t := size L.
  have Et : (k <= t)%N.
  { rewrite -Hr /frac_rank. have -> : fr (usubmx H) = fr (usubmx H) *m pid_mx t.
    { apply/matrixP => i j. rewrite [RHS]mxE (bigD1 j) //= big1 ?addr0; last by move=> j' Hj'; rewrite [pid_mx _ _ _]mxE (_ : (nat_of_ord j' == j) = false) ?mulr0 //; exact: negbTE.
      rewrite [pid_mx t j j]mxE eqxx /=. case: ltnP => Hj; rewrite ?mulr1 // mulr0 !mxE. suff -> : H (lshift m i) j = 0 by rewrite tofrac0.
      case: (ltnP j (size pivs)) => Hj'.
      - have := Hl j (lshift m i) Hj'. rewrite mxE. apply. apply: leq_trans (ltn_ord i) _. rewrite [pivs](sorted_split k Hs) nth_cat -/L -/t ltnNge Hj /=.
        have Hin : (j - t < size [seq i <- pivs | k <= i])%N by rewrite ltn_subLR // -[X in (_ < X)%N]size_cat -sorted_split.
        by move: (mem_nth 0%N Hin); rewrite mem_filter => /andP[].
      - by have := Hz j (lshift m i) Hj'; rewrite mxE. }
    apply: leq_trans (mxrankM_maxr _ _) _. have Ht : (t <= n)%N by apply: leq_trans Hk; rewrite /t size_filter count_size. by rewrite rank_pid_mx. }
  have Hu : uniq L by apply: filter_uniq; apply: sorted_uniq Hs; [exact: ltn_trans|exact: ltnn].
  have Hsub : {subset L <= iota 0 k} by move=> x; rewrite mem_filter mem_iota add0n => /andP[].
  have [_ E] := uniq_min_size Hu Hsub ltac:(by rewrite size_iota).
  apply: (@irr_sorted_eq _ ltn) => //; [exact: ltn_trans|exact: ltnn|by apply: sorted_filter Hs; exact: ltn_trans|exact: iota_ltn_sorted].
Qed.

Variables p q : nat.
Section Ext.
Variables (k m : nat) (A : 'M[R]_(k, p * q)) (B : 'M[R]_(m, p * q)).
Lemma ext_ok a b : islat (p := p) (q := q) a A -> islat (p := p) (q := q) b B -> (forall x, rspan A x -> rspan B x) ->
  exists ext Es, [/\ extension_basis div ffa xgcd a b = Some ext, lsrepr (p := p) (q := q) ext Es, size Es = (m - k)%N /\ (k <= m)%N, sfree A Es & forall i, (i < size Es)%N -> exists j, Es`_i = unfl (row j B)].
Proof.
  move=> Ha Hb Hsub. rewrite /extension_basis. case: (@contains_sublattice_ok _ _ _ _ BZ p q b a (fun M => rspan B (fl M)) (fun M => rspan A (fl M))).
  { apply/is_latticeE. by exists m, B. } { apply/is_latticeE. by exists k, A. }
  move=> b0 [Ec Hb0]. have [-> _ Hma HA] := Ha. have [-> -> Hmb HB] := Hb. rewrite PeanoNat.Nat.eqb_refl /= Ec. cbn [obind].
  have -> : b0 by apply/Hb0 => M /Hsub. case: (join2 Hma Hmb) => mm [-> Hmm]. cbn [obind].
  case: (col_hermite_ok BZ Hmm) => h [u [ud [pivs [H [U [-> Hh Hu [EH _ HU] He]]]]]]. cbn [obind].
  have [-> _] := islat_rank BZ Ha. have [-> _] := islat_rank BZ Hb.
  have EHu : usubmx H = A *m U. { by rewrite EH mul_col_mx col_mxKu. }
  have Hpre := prefix_pivots He _. have {}Hpre : [seq i <- pivs | (i < k)%N] = iota 0 k.
  { apply: Hpre. rewrite EHu => c. rewrite mulmxA => /(congr1 (fun z => z *m invmx U)). rewrite mulmxK // mul0mx. exact: HA. }
  have Hs : sorted ltn pivs by case: He. have Hsp := sorted_split k Hs. rewrite Hpre in Hsp. set L := [seq i <- pivs | (k <= i)%N] in Hsp.
  have EL : List.filter (fun i => Nat.leb k i) pivs = L.
  { rewrite /L. elim: (pivs) => //= x s' ->. by rewrite leb_nat. }
  have Hrk : size pivs = m.
  { rewrite -(echelon_rank He). have -> : frac_rank H^T = frac_rank H by rewrite /frac_rank -map_trmx mxrank_tr.
    rewrite EH. have -> : frac_rank (col_mx A B *m U) = frac_rank (col_mx A B).
    { rewrite /frac_rank map_mxM mxrankMfree // row_free_unit unitmxE det_map_mx. apply: rmorph_unit. by rewrite -unitmxE. }
    transitivity (frac_rank B); last by have [_] := islat_rank BZ Hb. rewrite /frac_rank map_col_mx -addsmxE. apply: eqmx_rank. apply/eqmxP. apply/addsmx_idPr. exact: rs_le. }
  have HLsz : size L = (m - k)%N by rewrite -Hrk Hsp size_cat size_iota addKn.
  have Hkm : (k <= m)%N by rewrite -Hrk Hsp size_cat size_iota leq_addr.
  have HLr x : x \in L -> (k <= x < k + m)%N. { rewrite mem_filter => /andP[-> Hx]. by have [_ _ Hq _ _] := He; rewrite Hq. }
  pose E (i : nat) : 'M[R]_(p,q) := unfl (\row_j mxf (col_mx A B) i j).
  rewrite [X in mapM _ X]EL.
  case: (@mapM_F2 _ _ (fun i => construct p q (fun mr mc => do idx <- m_rc_to_idx p q mr mc; get mm i idx)) (fun i x => represents x (E i)) L).
  { move=> i /MatProofs4.in_mem /HLr /andP[_ Hi]. apply: construct_repr => r c. rewrite m_rc_ok /=.
    rewrite (repr_getE (Ordinal Hi) (Ordinal (idx_lt r c)) Hmm). congr Some. rewrite !mxE. by rewrite (mxfE (col_mx A B) (Ordinal Hi)) mxE. }
  move=> ext [-> Hext]. cbn [obind]. have Lext : length ext = size L by elim: Hext => //= x y l l' _ _ ->.
  have -> : Nat.eqb (k + length ext)%coq_nat m by apply/PeanoNat.Nat.eqb_eq; rewrite Lext HLsz plusE subnKC.
  exists ext, [seq E i | i <- L]. split=> //.
  - elim: Hext => [|x y l l' Hxy _ IH] /=; by constructor.
  - by rewrite size_map.
  - move=> c d. rewrite /comb size_map => E0. set s := size L in E0.
    pose w0 : 'rV[R]_(k + m) := \row_i (match split i with inl i' => c 0 i' | inr i' => if (i : nat) \in L then d (index (i : nat) L) else 0 end).
    have Hu' : uniq L by apply: filter_uniq; apply: sorted_uniq Hs; [exact: ltn_trans|exact: ltnn].
    have Ew : w0 *m col_mx A B = 0.
    { rewrite -[w0]hsubmxK mul_row_col -[RHS]E0. congr (_ + _). { congr (_ *m _). apply/rowP => i. rewrite !mxE. by rewrite (unsplitK (inl i)). }
      rewrite mulmx_sum_row (bigID (fun i : 'I_m => (k + i)%N \in L)) /= [X in _ + X]big1 ?addr0; last by move=> i /negPf Hi; rewrite !mxE (unsplitK (inr i)) /= Hi scale0r.
      have Hf (i : 'I_s) : (nth 0%N L i - k < m)%N by rewrite ltn_subLR; move: (HLr _ (mem_nth 0%N (ltn_ord i))) => /andP[].
      rewrite (reindex_omap (fun i => Ordinal (Hf i)) (fun i : 'I_m => insub (index (k + i)%N L))) /=.
      - apply: eq_big => [i|i _].
        + have /andP[H1 _] := HLr _ (mem_nth 0%N (ltn_ord i)). by rewrite subnKC // mem_nth //= index_uniq // valK eqxx.
        + have /andP[H1 H2] := HLr _ (mem_nth 0%N (ltn_ord i)). rewrite !mxE (unsplitK (inr _)) /= subnKC // mem_nth // index_uniq //. congr (_ *: _).
          rewrite (nth_map 0%N) // unflK. apply/rowP => j. rewrite !mxE. transitivity (mxf (col_mx A B) (rshift k (Ordinal (Hf i))) j); first by rewrite mxfE col_mxEd. congr (mxf _ _ _). by rewrite /= subnKC.
      - move=> i Hi. have Hx : (index (k + i)%N L < s)%N by rewrite index_mem. rewrite (insubT (fun x => x < s)%N Hx) /=. congr Some. apply: val_inj. by rewrite /= nth_index // addKn. }
    have W0 : w0 = 0.
    { apply: (pivot_rows He); last by rewrite EH mulmxA Ew mul0mx. move=> i. rewrite Hsp mem_cat mem_iota add0n negb_or -leqNgt => /andP[Hi1 Hi2].
      rewrite mxE. case: splitP => j Hj; first by move: Hi1; rewrite Hj leqNgt ltn_ord. by rewrite (negPf Hi2). }
    split.
    + apply/rowP => i. move/rowP: W0 => /(_ (lshift m i)). rewrite !mxE. by rewrite (unsplitK (inl i)).
    + move=> i Hi. have /andP[H1 H2] := HLr _ (mem_nth 0%N Hi). move/rowP: W0 => /(_ (Ordinal H2)). rewrite !mxE.
      case: splitP => j Hj; first by move: H1; rewrite /= in Hj; rewrite Hj leqNgt ltn_ord. by rewrite /= mem_nth // index_uniq.
  - move=> i. rewrite size_map => Hi. have /andP[H1 H2] := HLr _ (mem_nth 0%N Hi). have Hj : (nth 0%N L i - k < m)%N by rewrite ltn_subLR.
    exists (Ordinal Hj). rewrite (nth_map 0%N) //. congr unfl. apply/rowP => j. rewrite !mxE. transitivity (mxf (col_mx A B) (rshift k (Ordinal Hj)) j); last by rewrite mxfE col_mxEd. congr (mxf _ _ _). by rewrite /= subnKC.
Qed.
End Ext.
End Bez.