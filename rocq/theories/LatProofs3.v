(* Solving and membership *)
From Coq Require Import NArith.
From mathcomp Require Import all_ssreflect all_algebra all_fingroup.
From Coq Require Import Lia.
From Verif Require Import RingSpec RingModel RingProofs PermModel MatModel MatSpec MatViewSpec MatProofs MatProofs2 MatProofs3 MatProofs5 MatProofs6 MatProofs7 MatProofs8 LatModel LatSpec LatProofs LatProofs2.
Close Scope rs_scope.
Set Implicit Arguments.
Unset Strict Implicit.
Unset Printing Implicit Defensive.
Import GRing.Theory.
Local Open Scope ring_scope.

Section L.
Variable R : idomainType.
Notation O := (mc_ops R).
Notation mat := (matrix (T O)).
Lemma repr_shows p q (m : mat) (M : 'M[R]_(p,q)) : represents m M -> shows m (SMat p q (mxf M)).
Proof. move=> H. apply/shows_shape. exact: repr_shape. Qed.
Lemma join2 p1 p2 n (a b : mat) (A : 'M[R]_(p1,n)) (B : 'M[R]_(p2,n)) : represents a A -> represents b B ->
  exists j, join_rows n [:: a; b] = Some j /\ represents j (col_mx A B).
Proof.
  move=> Ha Hb. case: (@join_rows_shows R 0 n [:: a; b] [:: SMat p1 n (mxf A); SMat p2 n (mxf B)]).
  - apply: List.Forall2_cons; first exact: repr_shows. apply: List.Forall2_cons; [exact: repr_shows|exact: List.Forall2_nil].
  - by do 2 (apply: List.Forall_cons => //).
  - move=> j [E S]. exists j. split=> //. move: S. rewrite /sum_rows /List.list_sum /= PeanoNat.Nat.add_0_r => /shows_shape /= S. apply: (shape_reprE S) => i k.
    rewrite ltb_nat mxE. case: (splitP i) => i' Ei; rewrite Ei; first by rewrite mxfE.
    have -> : (p1 + i' - p1)%coq_nat = i' by rewrite minusE addKn. by rewrite ltb_nat ltn_ord mxfE.
Qed.
Lemma join2_cols n q1 q2 (a b : mat) (A : 'M[R]_(n,q1)) (B : 'M[R]_(n,q2)) : represents a A -> represents b B ->
  exists j, join_cols n [:: a; b] = Some j /\ represents j (row_mx A B).
Proof.
  move=> Ha Hb. rewrite /join_cols /=. case: (join2 (repr_tr Ha) (repr_tr Hb)) => j [-> Hj]. exists (transpose j). split=> //.
  move: (repr_tr Hj). by rewrite tr_col_mx !trmxK.
Qed.
Lemma basis_elt_ok p q k l (Bs : 'I_k -> 'M[R]_(p,q)) (n : 'I_k) (i : 'I_p) (j : 'I_q) : has_basis l Bs -> basis_matrix_element (R := O) l n i j = Some (Bs n i j).
Proof.
  move=> [E1 E2 H _]. rewrite /basis_matrix_element E1 E2 m_rc_ok /=.
  rewrite (@repr_getE _ _ _ _ _ n (Ordinal (idx_lt i j)) H) mxE. congr (Some (Bs n _ _)); apply/val_inj => /=.
  - have Hq : (0 < q)%N := leq_ltn_trans (leq0n _) (ltn_ord j). by rewrite divnMDl // divn_small ?addn0.
  - by rewrite modnMDl modn_small.
Qed.
Lemma lrank_ok p q k l (Bs : 'I_k -> 'M[R]_(p,q)) : has_basis l Bs -> lrank (R := O) l = k.
Proof. move=> [_ _ H _]. exact: (repr_rows H). Qed.
Lemma basis_matrix_ok p q k l (Bs : 'I_k -> 'M[R]_(p,q)) (n : 'I_k) : has_basis l Bs -> exists m, basis_matrix (R := O) l n = Some m /\ represents m (Bs n).
Proof.
  move=> H. rewrite /basis_matrix (lrank_ok H) leb_nat leqNgt ltn_ord /=. have := basis_elt_ok n _ _ H. have [E1 E2 _ _] := H. rewrite /basis_matrix_element E1 E2 => Hb. apply: construct_repr => i j. exact: Hb.
Qed.
Lemma basis_matrices_ok p q k l (Bs : 'I_k -> 'M[R]_(p,q)) : has_basis l Bs -> exists ms, basis_matrices (R := O) l = Some ms /\ lrepr ms Bs.
Proof. move=> H. rewrite /basis_matrices (lrank_ok H). apply: mapM_lrepr; first by rewrite subn0. move=> i. exact: basis_matrix_ok. Qed.
Lemma transpose_ok p q l (P : 'M[R]_(p,q) -> Prop) : is_lattice l P -> exists l', lat_transpose (R := O) l = Some l' /\ is_lattice l' (fun M => P M^T).
Proof.
  move=> [k [Bs [H HP]]]. rewrite /lat_transpose. case: (basis_matrices_ok H) => ms [-> Hms] /=. have [-> -> _ HI] := H.
  have Hms' : lrepr (List.map transpose ms) (fun i => (Bs i)^T) by apply: map_lrepr Hms => m M; exact: repr_tr.
  case: (mats_to_rows_ok Hms') => m [-> Hm] /=. eexists. split; first reflexivity. exists k, (fun i => (Bs i)^T). split.
  - split=> //. exact: indep_tr.
  - move=> M. by rewrite HP lspan_tr.
Qed.
End L.
Section Bez.
Variable R : idomainType.
Notation O := (mc_ops R).
Notation mat := (matrix (T O)).
Variable div : div_op O.
Variable ffa : ffa_op O.
Variable xgcd : R -> R -> R * R * R.
Hypothesis BZ : bezout_laws div ffa xgcd.
Lemma xgcd_list_norm fuel : forall (l : seq R) g cs, @xgcd_list O div ffa xgcd fuel l = Some (g, cs) -> snd (ffa g) = g.
Proof.
  elim: fuel => [|fuel IH] l g cs //. case: l => [|e0 [|e1 [|e2 l]]] /=.
  - move=> [<- _]. exact: (ffa0 BZ).
  - case E: (ffa e0) => [u s]. case: (inv _ u) => // v [<- _]. have := ffa_norm BZ e0. by rewrite E.
  - have := bz_norm BZ e0 e1. case: (xgcd e0 e1) => [[d x] y] /= H [<- _] //.
  - case: (xgcd_list _ _ _ _ _) => // -[g1 c1]. case: (xgcd_list _ _ _ _ _) => // -[g2 c2].
    have := bz_norm BZ g1 g2. case: (xgcd g1 g2) => [[d x] y] /= H [<- _] //.
Qed.
Lemma norm_unit (a : R) : snd (ffa a) = a -> a \is a GRing.unit -> a = 1.
Proof.
  move=> E Hu. have H : @runit O a by exists (a^-1); apply/eqP; exact: mulrV.
  have /= /eqP := ffa_of_unit _ _ (bz_ffa BZ) a H. by rewrite E.
Qed.
Lemma rdot_sum (cs l : seq R) : length cs = length l -> @rdot O cs l = \sum_(i < length l) nth 0 cs i * nth 0 l i.
Proof.
  elim: cs l => [|c cs IH] [|x l] //=; first by rewrite big_ord0. move=> [E]. rewrite big_ord_recl IH //.
Qed.
(* Bezout coefficients for the entries of a family *)
Lemma xgcd_list_fam k (f : 'I_k -> R) (l : seq R) : length l = k -> (forall i : 'I_k, List.nth_error l i = Some (f i)) -> 
  exists g cs (c : 'I_k -> R), [/\ @xgcd_list O div ffa xgcd (S (length l)) l = Some (g, cs), (forall i : 'I_k, List.nth_error cs i = Some (c i)),
     g = \sum_i c i * f i, (forall i, exists d, f i = g * d) & snd (ffa g) = g].
Proof.
  move=> L Hf. case: (xgcd_list_ok O (id_ring _ _ (bz_idom BZ)) div (bz_idom BZ) ffa (bz_ffa BZ) xgcd (bz_xgcd BZ) (S (length l)) l (le_n _)) => g [cs [E [Lc [[Hg _] He]]]].
  exists g, cs, (fun i => nth 0 cs i). have Ei : forall i : 'I_k, nth 0 l i = f i.
  { move=> i. have := Hf i. move: (nat_of_ord i) => n. elim: l n {L Hf E Lc Hg He} => [|x l IH] [|n] //=; [by case|exact: IH]. }
  split=> //.
  - move=> i. have : (i < length cs)%N by rewrite Lc L. move: (nat_of_ord i) => n. elim: cs n {E Lc He} => [|x cs IH] [|n] //=. exact: IH.
  - have He' : @rdot O cs l == g by exact He. rewrite -(eqP He') rdot_sum // L. apply: eq_bigr => i _. by rewrite Ei.
  - move=> i. case: (Hg (f i)); first exact: (List.nth_error_In _ _ (Hf i)). move=> d Hd. exists d. have Hd' : f i == g * d by exact Hd. exact/eqP.
  - exact: xgcd_list_norm E.
Qed.
Lemma mapM_fam (X : Type) k (f : 'I_k -> X) (h : nat -> option X) : (forall i : 'I_k, h i = Some (f i)) ->
  exists l, [/\ mapM h (range 0 k) = Some l, length l = k & forall i : 'I_k, List.nth_error l i = Some (f i)].
Proof.
  move=> H. case: (@mapM_total nat X h (range 0 k)).
  - move=> x /in_rangeP /= Hx. by rewrite (H (Ordinal Hx)).
  - move=> l [E [L Hn]]. exists l. split=> //; first by rewrite L range_length PeanoNat.Nat.sub_0_r. move=> i. rewrite (Hn i i) ?H // /range.
    have Hi : lt i (k - 0)%coq_nat by rewrite PeanoNat.Nat.sub_0_r; apply/ltP. rewrite (@List.nth_error_nth' _ _ _ 0%N) ?List.seq_length // List.seq_nth //.
Qed.
Lemma is_unitE' (x : R) : is_unit div x = (x \is a GRing.unit). Proof. exact: (is_unitE (bz_idom BZ)). Qed.
Lemma unwrap_add p q a b (A B : 'M[R]_(p,q)) : represents a A -> represents b B -> exists c, unwrap (@add_mut O a b) = Some c /\ represents c (A + B).
Proof. move=> Ha Hb. case: (add_repr Ha Hb) => c [E Hc]. exists c. split=> //. move: E. by rewrite /add /unwrap => ->. Qed.
(* accumulating a linear combination of the basis *)
Lemma comb_loop p q k l (Bs : 'I_k -> 'M[R]_(p,q)) (ts : seq R) (c : 'I_k -> R) z : has_basis l Bs -> (forall i : 'I_k, List.nth_error ts i = Some (c i)) -> represents z (0 : 'M[R]_(p,q)) ->
  exists a, forM (range 0 k) (fun bn acc => do b <- @basis_matrix O l bn; do t <- List.nth_error ts bn; do s <- mul_scalar b t; unwrap (add_mut acc s)) z = Some a /\
    represents a (\sum_i c i *: Bs i).
Proof.
  move=> HB Hc Hz. 
  case: (@forM_range mat (fun bn acc => do b <- @basis_matrix O l bn; do t <- List.nth_error ts bn; do s <- mul_scalar b t; unwrap (add_mut acc s))
     (fun n a => represents a (\sum_(i < k | (i < n)%N) c i *: Bs i)) 0 k z) => //.
  - exact/leP.
  - by rewrite big_pred0.
  - move=> n a [_ /ltP Hn] Ha. case: (basis_matrix_ok (Ordinal Hn) HB) => b [/= -> Hb] /=. rewrite (Hc (Ordinal Hn)) /=. case: (mul_scalar_repr (c (Ordinal Hn)) Hb) => s [-> Hs] /=.
    case: (unwrap_add Ha Hs) => a' [-> Ha']. exists a'. split=> //. 
    rewrite PeanoNat.Nat.add_1_r. have -> // : \sum_(i < k | (i < n.+1)%N) c i *: Bs i = \sum_(i < k | (i < n)%N) c i *: Bs i + c (Ordinal Hn) *: Bs (Ordinal Hn).
    rewrite (bigD1 (Ordinal Hn)) //= addrC. congr (_ + _). apply: eq_bigl => i. by rewrite ltnS -(inj_eq val_inj) /= [RHS]ltn_neqAle andbC.
  - move=> a [E Ha]. exists a. split=> //. by rewrite (eq_bigl (fun i : 'I_k => (i < k)%N)) // => i; rewrite ltn_ord.
Qed.
Lemma col_solve_ok p q a (A : 'M[R]_(p,q)) y (Y : 'cV[R]_p) : represents a A -> represents y Y ->
  exists o, col_solve div ffa xgcd a y = Some o /\ match o with Some x => exists X : 'cV[R]_q, represents x X /\ A *m X = Y | None => forall X : 'cV[R]_q, A *m X <> Y end.
Proof.
  move=> Ha Hy. rewrite /col_solve (repr_rows Ha) (repr_rows Hy) (repr_cols Hy) (repr_cols Ha) !PeanoNat.Nat.eqb_refl /=.
  case: (join2_cols Hy Ha) => j [-> Hj] /=. case: (col_kernel_ok BZ Hj) => ker [-> [k [Bs [HB HK]]]] /=. rewrite (lrank_ok HB).
  pose i0 : 'I_(1 + q) := ord0. pose f i := Bs i i0 0.
  case: (@mapM_fam R k f (fun bn => @basis_matrix_element O ker bn 0 0)); first by move=> i; exact: (basis_elt_ok i i0 ord0 HB).
  move=> fc [-> L Hfc]. case: (xgcd_list_fam L Hfc) => g [cs [c [/= -> Hc Eg Hd Hn]]] /=.
  rewrite is_unitE'. have -> : implb (g \is a GRing.unit) (g == 1) by case U: (g \is a GRing.unit) => //=; apply/eqP/norm_unit.
  case: eqP => Eg1; last first.
  - eexists. split; first reflexivity. move=> X HX. apply: Eg1. apply: norm_unit => //. 
    have : row_mx Y A *m (col_mx 1%:M (- X) : 'cV[R]_(1 + q)) = 0 by rewrite mul_row_col mulmx1 mulmxN HX subrr.
    move/HK => [d /matrixP /(_ i0 ord0)]. rewrite (_ : i0 = lshift q 0); last exact/val_inj. rewrite col_mxEu mxE eqxx summxE => E1.
    have [e He] : exists e, \sum_i (d i *: Bs i) (lshift q 0) ord0 = g * e.
    { apply: (big_ind (fun x => exists e, x = g * e)).
      - by exists 0; rewrite mulr0.
      - move=> x x' [e ->] [e' ->]. exists (e + e'). by rewrite mulrDr.
      - move=> i _. case: (Hd i) => e He. exists (d i * e). by rewrite mxE mulrCA -He /f (_ : i0 = lshift q 0) //; exact/val_inj. }
    apply/unitrPr. exists e. by rewrite -He -E1.
  - case: (@zero_repr R (1 + q) 1) => z [Ez Hz]. rewrite PeanoNat.Nat.add_1_r Ez /=. case: (comb_loop HB Hc Hz) => an [-> Han] /=.
    move: Han. set X := \sum_i _ => HX. have HX1 : row_mx Y A *m X = 0 by apply/HK; exists c.
    have EX : X i0 0 = 1. { rewrite -Eg1 Eg summxE. apply: eq_bigr => i _. by rewrite mxE. }
    have /= G := repr_getE i0 ord0 HX. rewrite EX in G. rewrite G /= eqxx (repr_rows HX).
    case: (@submatrix_repr _ _ _ an X (range 1 (1 + q)) [:: 0%N] q 1 (fun i => rshift 1 i) (fun _ => ord0) HX) => //.
    { by rewrite range_length /= PeanoNat.Nat.sub_0_r. }
    { move=> i. rewrite LatProofs.nth_range //. by rewrite addnC addnK. }
    { by move=> i; rewrite ord1. }
    move=> sub [-> Hsub] /=. case: (neg_repr Hsub) => x [-> Hx] /=. case: (unwrap_mul Ha Hx) => mx [-> Hmx] /=. rewrite (equal_repr Hmx Hy) /=.
    have EY : A *m - (\matrix_(i, j) X (rshift 1 i) ord0) = Y.
    { have -> : (\matrix_(i, j) X (rshift 1 i) ord0) = dsubmx X by apply/matrixP => i j'; rewrite (ord1 j') !mxE.
      have Eu : usubmx X = 1%:M. { apply/matrixP => i j'. rewrite !ord1 !mxE eqxx -EX. congr (X _ _). exact/val_inj. }
      move: HX1. rewrite -{1}[X]vsubmxK mul_row_col Eu mulmx1 => /eqP. rewrite addr_eq0 => /eqP ->. by rewrite mulmxN. }
    rewrite EY eqxx. eexists. split; first reflexivity. exists (- (\matrix_(i, j) X (rshift 1 i) ord0)). by split.
Qed.
Lemma row_solve_ok p q a (A : 'M[R]_(p,q)) y (Y : 'rV[R]_q) : represents a A -> represents y Y ->
  exists o, row_solve div ffa xgcd a y = Some o /\ match o with Some x => exists X : 'rV[R]_p, represents x X /\ X *m A = Y | None => forall X : 'rV[R]_p, X *m A <> Y end.
Proof.
  move=> Ha Hy. rewrite /row_solve. case: (col_solve_ok (repr_tr Ha) (repr_tr Hy)) => o [-> Ho] /=. eexists. split; first reflexivity.
  case: o Ho => [x [X [Hx E]]|H] /=.
  - exists X^T. split; first exact: repr_tr. apply: trmx_inj. by rewrite trmx_mul trmxK.
  - move=> X E. apply: (H X^T). by rewrite -E trmx_mul.
Qed.
Lemma contains_row_ok n k l (B : 'M[R]_(k,n)) y (Y : 'rV[R]_n) : represents (meta l) B -> represents y Y -> exists b, contains_row div ffa xgcd l y = Some b /\ (b <-> rspan B Y).
Proof.
  move=> Hl Hy. rewrite /contains_row. case: (row_solve_ok Hl Hy) => o [-> Ho] /=. eexists. split; first reflexivity. case: o Ho => [x [X [_ E]]|H].
  - split=> // _. by exists X.
  - split=> // -[c E]. by case: (H c).
Qed.
Lemma contains_point_ok p q l (P : 'M[R]_(p,q) -> Prop) m M : is_lattice l P -> represents m M -> exists b, contains_point div ffa xgcd l m = Some b /\ (b <-> P M).
Proof.
  move=> [k [Bs [[E1 E2 Hl HI] HP]]] Hm. rewrite /contains_point E1 E2. have HL : lrepr [:: m] (fun _ : 'I_1 => M) by split=> // i; exists m; rewrite ord1.
  case: (mats_to_rows_ok HL) => r [-> Hr] /=. have Hr' : represents r (fl M). { have <- // : flat (fun _ : 'I_1 => M) = fl M. apply/matrixP => i j. by rewrite !mxE. }
  case: (contains_row_ok Hl Hr') => b [-> Hb]. exists b. split=> //. by rewrite Hb HP lspan_flat.
Qed.
Lemma contains_sublattice_ok p q l l' (P Q : 'M[R]_(p,q) -> Prop) : is_lattice l P -> is_lattice l' Q -> exists b, contains_sublattice div ffa xgcd l l' = Some b /\ (b <-> forall M, Q M -> P M).
Proof.
  move=> [k [Bs [[E1 E2 Hl HI] HP]]] [k' [Bs' [HB' HQ]]]. have [E1' E2' Hl' HI'] := HB'. rewrite /contains_sublattice (repr_cols Hl) (repr_cols Hl') PeanoNat.Nat.eqb_refl (lrank_ok HB').
  have Hrow : forall i : 'I_k', exists b : bool, (do row <- @basis_row O l' i; contains_row div ffa xgcd l row) = Some b /\ (b <-> rspan (flat Bs) (fl (Bs' i))).
  { move=> i. rewrite /basis_row (repr_cols Hl'). case: (sub_one_row i Hl') => t [-> Ht] /=. rewrite row_flat in Ht. exact: contains_row_ok. }
  pose bb (i : nat) := if (do row <- @basis_row O l' i; contains_row div ffa xgcd l row) is Some true then true else false.
  exists (List.forallb bb (range 0 k')). split.
  - apply: allM_spec => i /in_rangeP /= Hi. case: (Hrow (Ordinal Hi)) => b [/= E _]. rewrite /bb E. by case: b {E}.
  - split=> [/List.forallb_forall H M /HQ [c ->]|H].
    + apply/HP. have Hs : forall i, lspan Bs (Bs' i).
      { move=> i. have := H i. move=> /(_ _) Hb. have : bb i by apply: Hb; apply/in_rangeP; rewrite /= ltn_ord. rewrite /bb. case: (Hrow i) => b [-> Hb']. case: b Hb' => // Hb' _. exact/lspan_flat/Hb'. }
      elim/big_ind: _ => [|x y [d ->] [e ->]|i _].
      * exists (fun=> 0). by rewrite big1 // => i _; rewrite scale0r.
      * exists (fun i => d i + e i). rewrite -big_split. apply: eq_bigr => i _. by rewrite scalerDl.
      * case: (Hs i) => d ->. exists (fun j => c i * d j). rewrite scaler_sumr. apply: eq_bigr => j _. by rewrite scalerA.
    + apply/List.forallb_forall => i /in_rangeP /= Hi. rewrite /bb. case: (Hrow (Ordinal Hi)) => b [/= -> Hb]. case: b Hb => // -[_ Hb].
      have : false by apply/Hb/lspan_flat/HP/H/HQ; exists (fun j => (j == Ordinal Hi)%:R); rewrite (bigD1 (Ordinal Hi)) //= eqxx scale1r big1 ?addr0 // => j /negbTE ->; rewrite scale0r. by [].
Qed.
Lemma lat_equal_ok p q l l' (P Q : 'M[R]_(p,q) -> Prop) : is_lattice l P -> is_lattice l' Q -> exists b, lat_equal div ffa xgcd l l' = Some b /\ (b <-> forall M, P M <-> Q M).
Proof.
  move=> HP HQ. rewrite /lat_equal. case: (contains_sublattice_ok HP HQ) => b [-> Hb] /=. case: b Hb => Hb; last first.
  - exists false. split=> //. split=> // H. apply/Hb => M. by rewrite H.
  - case: (contains_sublattice_ok HQ HP) => b [-> Hb'] /=. exists b. split=> //. split.
    + move=> /Hb' H M. split; [exact: H|]. exact/(proj1 Hb erefl).
    + move=> H. apply/Hb' => M. by rewrite H.
Qed.
End Bez.
