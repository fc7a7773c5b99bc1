(* Affine lattices *)
From Coq Require Import NArith.
From mathcomp Require Import all_ssreflect all_algebra all_fingroup.
From Coq Require Import Lia.
From Verif Require Import RingSpec RingModel RingProofs PermModel MatModel MatSpec MatViewSpec MatProofs MatProofs2 MatProofs3 MatProofs5 MatProofs6 MatProofs7 MatProofs8 LatModel LatSpec LatLoops LatProofs LatProofs2 LatProofs3 LatProofs4.
Close Scope rs_scope.
Set Implicit Arguments.
Unset Strict Implicit.
Unset Printing Implicit Defensive.
Import GRing.Theory.
Local Open Scope ring_scope.

Section L.
Variable R : idomainType.
Notation O := (mc_ops R).
Notation mat := (matrix (T O)).
Definition bmeta n k (v : 'rV[R]_n) (B : 'M[R]_(k,n)) : 'M[R]_(1 + k, 1 + n) := block_mx 1%:M v 0 B.
Lemma flN p q (M : 'M[R]_(p,q)) : fl (- M) = - fl M. Proof. apply/rowP => n. by rewrite !mxE. Qed.
Lemma rspan_bmeta n k (v : 'rV[R]_n) (B : 'M[R]_(k,n)) (a : 'M[R]_1) (w : 'rV[R]_n) : rspan (bmeta v B) (row_mx a w) <-> rspan B (w - a *m v).
Proof.
  split=> [[c]|[c Hc]].
  - rewrite -[c]hsubmxK /bmeta mul_row_block mulmx1 mulmx0 addr0 => /eq_row_mx [Ea Ew]. exists (rsubmx c). by rewrite Ew Ea addrC addKr.
  - exists (row_mx a c). rewrite /bmeta mul_row_block mulmx1 mulmx0 addr0 -Hc. by rewrite addrC subrK.
Qed.
Lemma bmeta_free n k (v : 'rV[R]_n) (B : 'M[R]_(k,n)) : rfree B -> rfree (bmeta v B).
Proof.
  move=> H c. rewrite -[c]hsubmxK /bmeta mul_row_block mulmx1 mulmx0 addr0 -[0]row_mx0 => /eq_row_mx [Ea]. rewrite Ea mul0mx add0r => /H ->. by rewrite row_mx0.
Qed.
Lemma free_bmeta n k (v : 'rV[R]_n) (B : 'M[R]_(k,n)) : rfree (bmeta v B) -> rfree B.
Proof.
  move=> H c Hc. have : row_mx 0 c *m bmeta v B = 0 by rewrite /bmeta mul_row_block mul0mx mulmx0 addr0 mul0mx Hc addr0 row_mx0.
  move/H => E. have := congr1 rsubmx E. by rewrite row_mxKr raddf0.
Qed.
Lemma idx_fl p q (M : 'M[R]_(p,q)) (n : 'I_(p * q)) : fl M 0 n = mxf M (n %/ q) (n %% q).
Proof. by rewrite mxE -(mxfE M). Qed.
Lemma metamat_ok p q k o (X : 'M[R]_(p,q)) ll (Bs : 'I_k -> 'M[R]_(p,q)) : represents o X -> has_basis ll Bs ->
  exists m, @offset_linlat_to_metamat O p q o ll = Some m /\ represents m (bmeta (fl X) (flat Bs)).
Proof.
  move=> Ho HB. rewrite /offset_linlat_to_metamat (lrank_ok HB). case: (@zero_repr R (1 + k) (1 + p * q)) => z [-> Hz] /=.
  have Sz := repr_shape Hz. case: (put_shape _ _ _ _ 0 0 1 Sz); [exact/ltP|exact/ltP|]. move=> m0 [-> S0] /=.
  case: (@put_row_shape R (S k) (p * q) m0 _ 0 (mxf (fl X) 0%N) (fun idx m => do rc <- m_idx_to_rc p q idx; do x <- get o (fst rc) (snd rc); put m 0 (1 + idx) x) S0); first exact/ltP.
  { move=> idx s /ltP Hi. have /= -> := m_idx_ok (Ordinal Hi). rewrite /=. have /= -> := repr_getE (Ordinal (row_lt (Ordinal Hi))) (Ordinal (col_lt (Ordinal Hi))) Ho.
    rewrite /=. have /= -> := mxfE (fl X) 0 (Ordinal Hi). by rewrite mxE. }
  move=> m1 [-> S1] /=.
  case: (@put_rows_shape R k (p * q) m1 _ (mxf (flat Bs)) (fun bn idx m => do rc <- m_idx_to_rc p q idx; do x <- @basis_matrix_element O ll bn (fst rc) (snd rc); put m (1 + bn) (1 + idx) x) S1).
  { move=> bn idx s /ltP Hb /ltP Hi. have /= -> := m_idx_ok (Ordinal Hi). rewrite /=. have /= -> := basis_elt_ok (Ordinal Hb) (Ordinal (row_lt (Ordinal Hi))) (Ordinal (col_lt (Ordinal Hi))) HB.
    rewrite /=. have /= -> := mxfE (flat Bs) (Ordinal Hb) (Ordinal Hi). by rewrite mxE. }
  move=> m2 [E2 S2]. exists m2. split; first exact E2. apply: (shape_reprE S2) => i j.
  rewrite /bmeta. case: (@split_ordP 1 k i) => i' ->; case: (@split_ordP 1 (p * q) j) => j' ->.
  - apply: (etrans _ (esym (block_mxEul _ _ _ _ _ _))). by rewrite !ord1 mxE.
  - apply: (etrans _ (esym (block_mxEur _ _ _ _ _ _))). rewrite !ord1 -mxfE /=. by rewrite PeanoNat.Nat.sub_0_r.
  - apply: (etrans _ (esym (block_mxEdl _ _ _ _ _ _))). rewrite !ord1 mxE /=. have /= := mxfE (0 : 'M[R]_(1 + k, 1 + p * q)) (rshift 1 i') ord0. rewrite mxE. exact.
  - apply: (etrans _ (esym (block_mxEdr _ _ _ _ _ _))). rewrite -mxfE /=. by rewrite !PeanoNat.Nat.sub_0_r.
Qed.
Lemma row_to_mat_ok p q h s (H : 'M[R]_(s, 1 + p * q)) (i : 'I_s) : represents h H -> exists m, @row_to_mat O p q h i = Some m /\ represents m (unfl (rsubmx (row i H))).
Proof.
  move=> Hh. rewrite /row_to_mat. case: (@zero_repr R p q) => z [-> Hz] /=.
  case: (@fill_shape R p q z _ (fun idx => mxf H i (S idx)) (fun idx m => do rc <- m_idx_to_rc p q idx; do x <- get h i (1 + idx); put m (fst rc) (snd rc) x) (repr_shape Hz)).
  { move=> idx s0 /ltP Hi. have /= -> := m_idx_ok (Ordinal Hi). rewrite /=. have /= -> := repr_getE i (rshift 1 (Ordinal Hi)) Hh. rewrite /=.
    have /= -> := mxfE H i (rshift 1 (Ordinal Hi)). have Hq : (0 < q)%N by move: (leq_ltn_trans (leq0n _) Hi); rewrite muln_gt0 => /andP[].
    by rewrite nat_div nat_mod. }
  move=> m [E S]. exists m. split=> //. apply: (shape_reprE S) => a b. rewrite !mxE -mxfE /=. congr (mxf H i _.+1). by rewrite addnC.
Qed.
End L.

Section Bez.
Variable R : idomainType.
Notation O := (mc_ops R).
Notation mat := (matrix (T O)).
Variable div : div_op O.
Variable ffa : ffa_op O.
Variable xgcd : R -> R -> R * R * R.
Hypothesis BZ : bezout_laws div ffa xgcd.
Lemma aff_contains_point_ok p q l (P : 'M[R]_(p,q) -> Prop) m M : is_affine l P -> represents m M -> exists b, aff_contains_point div ffa xgcd l m = Some b /\ (b <-> P M).
Proof.
  move=> [_ _ Hl] Hm. rewrite /aff_contains_point. case: (aelems l) Hl => [[o ll] [X [Q [Ho HQ HP]]]|H]; last by exists false; split=> //; split=> // /H.
  case: (neg_repr Ho) => n [-> Hn] /=. case: (unwrap_add Hn Hm) => d [E Hd]. rewrite /add E /=. rewrite addrC in Hd. case: (contains_point_ok BZ HQ Hd) => b [-> Hb].
  exists b. split=> //. by rewrite Hb HP.
Qed.
Lemma from_offset_ok p q o ll (X : 'M[R]_(p,q)) (Q : 'M[R]_(p,q) -> Prop) : represents o X -> is_lattice ll Q -> exists l, from_offset_and_linear_lattice div ffa xgcd p q o ll = Some l /\ is_affine l (fun M => Q (M - X)).
Proof.
  move=> Ho HQ. rewrite /from_offset_and_linear_lattice (repr_rows Ho) (repr_cols Ho) /aff_check /=. have [k [Bs [[E1 E2 Hm HI] HS]]] := HQ. rewrite E1 E2 !PeanoNat.Nat.eqb_refl.
  have := lat_check_ok BZ Hm. have -> : Lat (meta ll) p q = ll by rewrite -E1 -E2; case: (ll). move=> [b [-> Hb]] /=. have -> : b by apply/Hb/indep_flat.
  rewrite (repr_rows Ho) (repr_cols Ho) !PeanoNat.Nat.eqb_refl. eexists. split; first reflexivity. split=> //=. by exists X, Q.
Qed.
Lemma is_affine_eq p q (l : afflat R) (P Q : 'M[R]_(p,q) -> Prop) : (forall M, P M <-> Q M) -> is_affine l P -> is_affine l Q.
Proof.
  move=> H [E1 E2 Hl]. split=> //. case: (aelems l) Hl => [[o ll] [X [S [Ho HS HP]]]|HN]; last by move=> M /H /HN. exists X, S. split=> // M. by rewrite -H.
Qed.
Lemma aff_pair_ok p q l1 l2 (P Q : 'M[R]_(p,q) -> Prop) : is_affine l1 P -> is_affine l2 Q -> exists l, aff_intersect_pair div ffa xgcd p q l1 l2 = Some l /\ is_affine l (fun M => P M /\ Q M).
Proof.
  move=> [E1 E1' H1] [E2 E2' H2]. rewrite /aff_intersect_pair E1 E1' E2 E2' !PeanoNat.Nat.eqb_refl /=.
  case: (aelems l1) H1 => [[o1 ll1] [X1 [P1 [Ho1 HP1 HP]]]|H1]; last by exists (@aff_empty O p q); split=> //; split=> // M [/H1].
  case: (aelems l2) H2 => [[o2 ll2] [X2 [P2 [Ho2 HP2 HQ]]]|H2]; last by exists (@aff_empty O p q); split=> //; split=> // M [_ /H2].
  have [k1 [B1 [HB1 HS1]]] := HP1. have [k2 [B2 [HB2 HS2]]] := HP2.
  case: (metamat_ok Ho1 HB1) => m1 [-> Hm1] /=. case: (metamat_ok Ho2 HB2) => m2 [-> Hm2] /=.
  have F1 : rfree (bmeta (fl X1) (flat B1)) by apply/bmeta_free/indep_flat; case: HB1.
  have F2 : rfree (bmeta (fl X2) (flat B2)) by apply/bmeta_free/indep_flat; case: HB2.
  case: (metainter_ok BZ Hm1 Hm2 F1 F2) => im [s [J [E Him HF HJ]]]. move: E. rewrite -[(1 + p * q)%N]/(S (p * q)) => -> /=. rewrite (repr_rows Him).
  have Hspan : forall M, P M /\ Q M <-> rspan J (row_mx 1%:M (fl M)).
  { move=> M. by rewrite HJ !rspan_bmeta !mul1mx -!flN -!flD -!lspan_flat HP HQ HS1 HS2. }
  case: s J Him HF HJ Hspan => [|s] J Him HF HJ Hspan /=.
  { exists (@aff_empty O p q). split=> //. split=> // M /Hspan [c /rowP /(_ (lshift _ ord0))]. rewrite !row_mxEl [c]thinmx0 mul0mx !mxE eqxx => /eqP. by rewrite oner_eq0. }
  case: (row_hermite_ok BZ Him) => h [u [ud [pivs [H [U [Eh Hh _ [EH _ HU] He]]]]]]. rewrite Eh /=.
  have Hsz : size pivs = s.+1. { rewrite -(echelon_rank He) EH frac_rank_unit //. exact/(rfree_rank BZ Him). }
  have HspH : forall x, rspan H x <-> rspan J x.
  { move=> x. split=> -[c ->]; first by exists (c *m U); rewrite EH mulmxA. exists (c *m invmx U). by rewrite EH mulmxA mulmxKV. }
  have HFH : rfree H. { move=> c. rewrite EH mulmxA => /HF /(congr1 (fun x => x *m invmx U)). by rewrite mulmxK // mul0mx. }
  have [Hso Hle Hq Hz0 [Hnz _]] := He.
  have Hcol : forall i : 'I_s, H (rshift 1 i) ord0 = 0.
  { move=> i. apply: Hz0; first by rewrite Hsz (ltn_ord (rshift 1 i : 'I_(1 + s))). apply: (@leq_trans (rshift 1 i : 'I_(1+s))) => //. apply: sorted_lt_ge => //. by rewrite Hsz (ltn_ord (rshift 1 i : 'I_(1 + s))). }
  have /= -> := repr_getE (ord0 : 'I_s.+1) (ord0 : 'I_(1 + p * q)) Hh. rewrite /=. set a := H ord0 ord0.
  have Hn : a \is a GRing.unit -> a = 1.
  { move=> Hu. apply: (norm_unit BZ) => //. have Ha : a != 0 by apply: contraTneq Hu => ->; rewrite unitr0.
    case: (Hnz ord0 ord0) => //=; first by rewrite Hsz. case E0: (nth 0%N pivs 0) => [|x] //. move: Ha. rewrite /a Hz0 ?Hsz ?E0 ?eqxx //. }
  rewrite (is_unitE' BZ). have -> : implb (a \is a GRing.unit) (a == 1) by case Hu: (a \is a GRing.unit) => //=; apply/eqP/Hn.
  case: eqP => Ea; last first.
  { exists (@aff_empty O p q). split=> //. split=> // M /Hspan /HspH [c /rowP /(_ (lshift _ ord0))]. rewrite row_mxEl !mxE eqxx (_ : lshift _ ord0 = ord0) //; last exact/val_inj.
    rewrite big_ord_recl big1 ?addr0. 2:{ move=> i _. have := Hcol i. rewrite (_ : rshift 1 i = lift ord0 i) //; last exact/val_inj. move=> ->. by rewrite mulr0. }
    move=> E1c. apply: Ea. apply: Hn. apply/unitrPr. exists (c 0 ord0). by rewrite mulrC -E1c. }
  (* the block form of H *)
  pose H' : 'M[R]_(1 + s, 1 + p * q) := H. pose v := ursubmx H'. pose B := drsubmx H'.
  have EB : H' = bmeta v B.
  { rewrite -[LHS]submxK /bmeta. congr block_mx.
    - apply/matrixP => i j. rewrite !ord1 !mxE eqxx -[RHS]Ea /a /H'. congr (H _ _); exact/val_inj.
    - apply/matrixP => i j. rewrite !ord1 !mxE -[RHS](Hcol i). congr (H _ _); exact/val_inj. }
  case: (row_to_mat_ok ord0 Hh) => off [/= -> Hoff] /=. rewrite (_ : length pivs = size pivs) // Hsz /= PeanoNat.Nat.sub_0_r.
  have Hoff' : represents off (unfl v). { have <- // : rsubmx (row ord0 H) = v. apply/rowP => j. rewrite !mxE. congr (H _ _); exact/val_inj. }
  case: (@mapM_lrepr R p q s (fam B) (fun bn => do z <- get h (1 + bn) 0; assert! @req O z (@r0 O); @row_to_mat O p q h (1 + bn)) 0 s); first by rewrite subn0.
  { move=> i. rewrite add0n. have /= -> := repr_getE (rshift 1 i : 'I_s.+1) (ord0 : 'I_(1 + p * q)) Hh. rewrite (Hcol i) /= eqxx. case: (row_to_mat_ok (rshift 1 i : 'I_s.+1) Hh) => m [/= -> Hm]. exists m. split=> //.
    rewrite /fam. have <- // : rsubmx (row (rshift 1 i) H) = row i B. apply/rowP => j. rewrite !mxE. congr (H _ _); exact/val_inj. }
  move=> bs [Ebs Hbs]. rewrite /= in Ebs. rewrite Ebs /=. have FB : rfree B by apply: (@free_bmeta _ _ _ v); rewrite -EB.
  case: (from_basis_ok BZ Hbs) => [|ll [-> Hll]]; first by apply/indep_flat; rewrite flat_fam. rewrite /=.
  have Hlat : is_lattice ll (lspan (fam B)) by exists s, (fam B).
  case: (from_offset_ok Hoff' Hlat) => l [-> Hl]. exists l. split=> //. apply: is_affine_eq Hl => M. rewrite Hspan -HspH -/H' EB rspan_bmeta mul1mx lspan_flat flat_fam flD flN unflK. by [].
Qed.
Lemma aff_fold_ok p q ls (Ps : seq ('M[R]_(p,q) -> Prop)) : List.Forall2 (@is_affine R p q) ls Ps -> forall l Q, is_affine l Q ->
  exists l', List.fold_left (fun acc l => do a <- acc; aff_intersect_pair div ffa xgcd p q a l) ls (Some l) = Some l' /\ is_affine l' (fun M => Q M /\ List.Forall (fun P : _ -> Prop => P M) Ps).
Proof.
  elim=> [|l0 P ls' Ps' H0 _ IH] l Q Hl /=.
  - exists l. split=> //. apply: is_affine_eq Hl => M. by split=> [|[]].
  - case: (aff_pair_ok Hl H0) => l1 [-> H1]. case: (IH l1 _ H1) => l' [-> H']. exists l'. split=> //. apply: is_affine_eq H' => M. split=> [[[HQ HP] HF]|[HQ HF]].
    + split=> //. exact: List.Forall_cons.
    + by inversion HF.
Qed.
Lemma aff_intersect_ok p q ls (Ps : seq ('M[R]_(p,q) -> Prop)) : List.Forall2 (@is_affine R p q) ls Ps ->
  exists l, aff_intersect div ffa xgcd p q ls = Some l /\ is_affine l (fun M => List.Forall (fun P : _ -> Prop => P M) Ps).
Proof.
  move=> H. case: H => [|l P ls1 Ps1 Hl].
  - case: (@lat_intersect_ok R div ffa xgcd BZ p q [::] [::]) => // l [E Hl]. rewrite /lat_intersect in E. rewrite /aff_intersect. case: (@zero_repr R p q) => z [-> Hz] /=.
    move: E. case: (ident _) => //= i [E]. subst l. eexists. split; first reflexivity. split=> //=. exists 0, (fun M => List.Forall (fun P : 'M[R]_(p,q) -> Prop => P M) [::]). by split.
  - case=> [|l0 P0 ls2 Ps2 H0 H2].
    + exists l. split=> //. apply: is_affine_eq Hl => M. split=> [H|H]; [exact: List.Forall_cons|by inversion H].
    + rewrite /aff_intersect. case: (aff_pair_ok Hl H0) => l1 [-> H1]. case: (aff_fold_ok H2 H1) => l' [-> H']. exists l'. split=> //. apply: is_affine_eq H' => M. split=> [[[HQ HP] HF]|HF].
      * by do 2 (apply: List.Forall_cons => //).
      * inversion HF as [|? ? ? HF']. by inversion HF'.
Qed.
(* Minkowski sums *)
Lemma aff_sum_loop_ok p q ls (Ps : seq ('M[R]_(p,q) -> Prop)) : List.Forall2 (@is_affine R p q) ls Ps -> forall off X acc Qs, represents off X -> List.Forall2 (@is_lattice R p q) acc Qs ->
  exists res, @aff_sum_loop O p q ls off acc = Some res /\
   match res with
   | None => forall M, ~ sumset Ps M
   | Some (off', acc') => exists X' Qs', [/\ represents off' (X + X'), List.Forall2 (@is_lattice R p q) acc' (List.app Qs Qs') & forall M, sumset Ps M <-> sumset Qs' (M - X')]
   end.
Proof.
  elim=> [|l P ls' Ps' [E1 E2 H0] _ IH] off X acc Qs Ho Ha /=.
  - eexists. split; first reflexivity. exists 0, [::]. rewrite addr0 List.app_nil_r. split=> // M. by rewrite subr0.
  - rewrite E1 E2 !PeanoNat.Nat.eqb_refl. case: (aelems l) H0 => [[o ll] [X0 [Q [Ho0 HQ HP]]]|HN].
    + case: (unwrap_add Ho Ho0) => off' [-> Ho'] /=. case: (IH off' (X + X0) (List.app acc [:: ll]) (List.app Qs [:: Q]) Ho').
      { apply: List.Forall2_app => //. exact: List.Forall2_cons. }
      move=> res [-> Hres]. exists res. split=> //. case: res Hres => [[off2 acc2] [X' [Qs' [H1 H2 H3]]]|HN].
      * exists (X0 + X'), (Q :: Qs'). split; [by rewrite addrA|by move: H2; rewrite -List.app_assoc|]. move=> M /=. split=> -[y [z [Hy Hz E]]].
        -- exists (y - X0), (z - X'). split; [exact/HP|exact/H3|]. by rewrite E opprD addrACA.
        -- exists (y + X0), (z + X'). split; [by apply/HP; rewrite addrK|by apply/H3; rewrite addrK|]. by rewrite addrACA -E subrK.
      * move=> M [y [z [_ Hz _]]]. exact: (HN z).
    + eexists. split; first reflexivity. by move=> M [y [z [/HN]]].
Qed.
Lemma aff_sum_ok p q ls (Ps : seq ('M[R]_(p,q) -> Prop)) : List.Forall2 (@is_affine R p q) ls Ps -> exists l, aff_sum div ffa xgcd p q ls = Some l /\ is_affine l (sumset Ps).
Proof.
  move=> H. rewrite /aff_sum. case: (@zero_repr R p q) => z [-> Hz] /=. case: (aff_sum_loop_ok H Hz (List.Forall2_nil _)) => res [-> Hres] /=. case: res Hres => [[off lls] [X [Qs [Ho Hl HS]]]|HN].
  - case: (lat_sum_ok BZ Hl) => ll [-> Hll] /=. eexists. split; first reflexivity. split=> //=. exists (0 + X), (sumset Qs). split=> // M. by rewrite add0r.
  - exists (@aff_empty O p q). by split.
Qed.
Lemma col_solution_ok p q a (A : 'M[R]_(p,q)) y (Y : 'cV[R]_p) : represents a A -> represents y Y ->
  exists l, col_solution_lattice div ffa xgcd a y = Some l /\ is_affine l (fun X : 'cV[R]_q => A *m X = Y).
Proof.
  move=> Ha Hy. rewrite /col_solution_lattice. case: (col_solve_ok BZ Ha Hy) => o [-> Ho] /=. rewrite (repr_cols Ha). case: o Ho => [x [X [Hx EX]]|HN].
  - case: (col_kernel_ok BZ Ha) => k [-> Hk] /=. case: (from_offset_ok Hx Hk) => l [-> Hl]. exists l. split=> //. apply: is_affine_eq Hl => M. rewrite mulmxBr EX.
    split=> [/eqP|->]; [by rewrite subr_eq0 => /eqP|by rewrite subrr].
  - eexists. split; first reflexivity. by split.
Qed.
Lemma row_solution_ok p q a (A : 'M[R]_(p,q)) y (Y : 'rV[R]_q) : represents a A -> represents y Y ->
  exists l, row_solution_lattice div ffa xgcd a y = Some l /\ is_affine l (fun X : 'rV[R]_p => X *m A = Y).
Proof.
  move=> Ha Hy. rewrite /row_solution_lattice. case: (row_solve_ok BZ Ha Hy) => o [-> Ho] /=. rewrite (repr_rows Ha). case: o Ho => [x [X [Hx EX]]|HN].
  - case: (row_kernel_ok BZ Ha) => k [-> Hk] /=. case: (from_offset_ok Hx Hk) => l [-> Hl]. exists l. split=> //. apply: is_affine_eq Hl => M. rewrite mulmxBl EX.
    split=> [/eqP|->]; [by rewrite subr_eq0 => /eqP|by rewrite subrr].
  - eexists. split; first reflexivity. by split.
Qed.
(* affine spans: combinations of the rows whose coefficients add up to one *)
Lemma row_affine_span_ok p q a (A : 'M[R]_(p,q)) : represents a A -> exists l, row_affine_span div ffa xgcd a = Some l /\ is_affine l (fun x : 'rV[R]_q => exists c : 'rV[R]_p, \sum_i c 0 i = 1 /\ x = c *m A).
Proof.
  move=> Ha. rewrite /row_affine_span (repr_rows Ha) (repr_cols Ha). case: p A Ha => [|p] A Ha /=.
  { eexists. split; first reflexivity. split=> // M [c [/eqP]]. by rewrite big_ord0 eq_sym oner_eq0. }
  rewrite /get_row (repr_cols Ha). case: (sub_one_row ord0 Ha) => o [/= -> Ho] /=.
  pose B : 'M[R]_(p, q) := \matrix_(i, j) (A (lift ord0 i) j - A ord0 j).
  case: (@construct_repr R p q (fun r c => do x <- get o 0 c; do y <- get a (r + 1)%coq_nat c; Some (@radd O (@rneg O x) y)) B).
  { move=> i j. have /= -> := repr_getE (ord0 : 'I_1) j Ho. rewrite /= PeanoNat.Nat.add_1_r. have /= -> := repr_getE (lift ord0 i) j Ha. rewrite /= !mxE. by rewrite addrC. }
  move=> b [Eb Hb]. rewrite PeanoNat.Nat.sub_0_r Eb /=. case: (row_span_ok BZ Hb) => ll [-> Hll] /=. case: (from_offset_ok Ho Hll) => l [-> Hl]. exists l. split=> //.
  apply: is_affine_eq Hl => M.
  have Hcomb : forall c : 'rV[R]_p, c *m B = \sum_i c 0 i *: row (lift ord0 i) A - (\sum_i c 0 i) *: row ord0 A.
  { move=> c. rewrite mulmx_sum_row scaler_suml -sumrB. apply: eq_bigr => i _. rewrite -scalerBr. congr (_ *: _). by apply/rowP => j; rewrite !mxE. }
  split=> [[c Hc]|[c [Hs ->]]].
  - exists (\row_i (if unlift ord0 i is Some j then c 0 j else 1 - \sum_j c 0 j)). split.
    + rewrite big_ord_recl mxE unlift_none [X in _ + X](eq_bigr (fun i => c 0 i)) ?subrK // => i _. by rewrite mxE liftK.
    + rewrite mulmx_sum_row big_ord_recl mxE unlift_none [X in _ + X](eq_bigr (fun i => c 0 i *: row (lift ord0 i) A)) => [|i _]; last by rewrite mxE liftK.
      rewrite scalerBl scale1r -addrA [- _ + _]addrC -Hcomb -Hc. by rewrite addrC subrK.
  - exists (\row_i c 0 (lift ord0 i)). rewrite Hcomb.
    have -> : \sum_i (\row_i0 c 0 (lift ord0 i0)) 0 i *: row (lift ord0 i) A = c *m A - c 0 ord0 *: row ord0 A.
    { rewrite mulmx_sum_row big_ord_recl addrC addKr. apply: eq_bigr => i _. by rewrite mxE. }
    have -> : \sum_i (\row_i0 c 0 (lift ord0 i0)) 0 i = 1 - c 0 ord0.
    { rewrite -Hs big_ord_recl addrC addKr. apply: eq_bigr => i _. by rewrite mxE. }
    rewrite scalerBl scale1r opprB addrA subrK. by [].
Qed.
Lemma col_affine_span_ok p q a (A : 'M[R]_(p,q)) : represents a A -> exists l, col_affine_span div ffa xgcd a = Some l /\ is_affine l (fun x : 'cV[R]_p => exists c : 'cV[R]_q, \sum_i c i 0 = 1 /\ x = A *m c).
Proof.
  move=> Ha. rewrite /col_affine_span (repr_rows Ha) (repr_cols Ha). case: q A Ha => [|q] A Ha /=.
  { eexists. split; first reflexivity. split=> // M [c [/eqP]]. by rewrite big_ord0 eq_sym oner_eq0. }
  rewrite /get_col (repr_rows Ha). case: (sub_one_col ord0 Ha) => o [/= -> Ho] /=.
  pose B : 'M[R]_(p, q) := \matrix_(i, j) (A i (lift ord0 j) - A i ord0).
  case: (@construct_repr R p q (fun r c => do x <- get o r 0; do y <- get a r (c + 1)%coq_nat; Some (@radd O (@rneg O x) y)) B).
  { move=> i j. have /= -> := repr_getE i (ord0 : 'I_1) Ho. rewrite /= PeanoNat.Nat.add_1_r. have /= -> := repr_getE i (lift ord0 j) Ha. rewrite /= !mxE. by rewrite addrC. }
  move=> b [Eb Hb]. rewrite PeanoNat.Nat.sub_0_r Eb /=. case: (col_span_ok BZ Hb) => ll [-> Hll] /=. case: (from_offset_ok Ho Hll) => l [-> Hl]. exists l. split=> //.
  apply: is_affine_eq Hl => M.
  have mulE : forall n (C : 'M[R]_(p,n)) (c : 'cV[R]_n), C *m c = \sum_i c i 0 *: col i C.
  { move=> n C c. apply/colP => i. rewrite !mxE summxE. apply: eq_bigr => j _. by rewrite !mxE mulrC. }
  have Hcomb : forall c : 'cV[R]_q, B *m c = \sum_i c i 0 *: col (lift ord0 i) A - (\sum_i c i 0) *: col ord0 A.
  { move=> c. rewrite mulE scaler_suml -sumrB. apply: eq_bigr => i _. rewrite -scalerBr. congr (_ *: _). by apply/colP => j; rewrite !mxE. }
  split=> [[c Hc]|[c [Hs ->]]].
  - exists (\col_i (if unlift ord0 i is Some j then c j 0 else 1 - \sum_j c j 0)). split.
    + rewrite big_ord_recl mxE unlift_none [X in _ + X](eq_bigr (fun i => c i 0)) ?subrK // => i _. by rewrite mxE liftK.
    + rewrite mulE big_ord_recl mxE unlift_none [X in _ + X](eq_bigr (fun i => c i 0 *: col (lift ord0 i) A)) => [|i _]; last by rewrite mxE liftK.
      rewrite scalerBl scale1r -addrA [- _ + _]addrC -Hcomb -Hc. by rewrite addrC subrK.
  - exists (\col_i c (lift ord0 i) 0). rewrite Hcomb.
    have -> : \sum_i (\col_i0 c (lift ord0 i0) 0) i 0 *: col (lift ord0 i) A = A *m c - c ord0 0 *: col ord0 A.
    { rewrite mulE big_ord_recl addrC addKr. apply: eq_bigr => i _. by rewrite mxE. }
    have -> : \sum_i (\col_i0 c (lift ord0 i0) 0) i 0 = 1 - c ord0 0.
    { rewrite -Hs big_ord_recl addrC addKr. apply: eq_bigr => i _. by rewrite mxE. }
    rewrite scalerBl scale1r opprB addrA subrK. by [].
Qed.
(* what contains_sublattice really tests *)
Lemma aff_sub_ok p q l other (P Q : 'M[R]_(p,q) -> Prop) : is_affine l P -> is_affine other Q -> exists b, aff_contains_sublattice div ffa xgcd l other = Some b /\ ((forall M, Q M -> P M) -> b).
Proof.
  move=> HP HQ. have [_ _] := HQ. rewrite /aff_contains_sublattice. case: (aelems other) => [[o ll] [X [S [Ho HS HSQ]]]|HN]; last by exists true.
  have [_ _] := HP. case El: (aelems l) => [[o2 ll2]|] => [_|HN]; last first.
  { exists false. split=> // H. exfalso. apply: (HN X). apply/H/HSQ. rewrite subrr. move: HS => [k [Bs [_ HB]]]. apply/HB. exists (fun=> 0). by rewrite big1 // => i _; rewrite scale0r. }
  have [k [Bs [HB HSB]]] := HS. rewrite (lrank_ok HB).
  have Hb : forall i : 'I_k, exists b : bool, (do b <- @basis_matrix O ll i; do p <- unwrap (@add O b o); aff_contains_point div ffa xgcd l p) = Some b /\ (b <-> P (Bs i + X)).
  { move=> i. case: (basis_matrix_ok i HB) => b [-> Hb] /=. case: (unwrap_add Hb Ho) => s [E Hs]. rewrite /add E /=. exact: (aff_contains_point_ok HP Hs). }
  pose bb (i : nat) := if (do b <- @basis_matrix O ll i; do p <- unwrap (@add O b o); aff_contains_point div ffa xgcd l p) is Some true then true else false.
  exists (List.forallb bb (range 0 k)). split.
  - apply: allM_spec => i /in_rangeP /= Hi. case: (Hb (Ordinal Hi)) => b [/= E _]. rewrite /bb E. by case: b {E}.
  - move=> H. apply/List.forallb_forall => i /in_rangeP /= Hi. rewrite /bb. case: (Hb (Ordinal Hi)) => b [/= -> [_ Hb']]. have -> // : b.
    apply/Hb'/H/HSQ. rewrite addrK. apply/HSB. exists (fun j => (j == Ordinal Hi)%:R). by rewrite (bigD1 (Ordinal Hi)) //= eqxx scale1r big1 ?addr0 // => j /negbTE ->; rewrite scale0r.
Qed.
End Bez.
