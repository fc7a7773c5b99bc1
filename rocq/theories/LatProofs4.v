(* Sums and intersections of linear lattices *)
From Coq Require Import NArith.
From mathcomp Require Import all_ssreflect all_algebra all_fingroup.
From Coq Require Import Lia.
From Verif Require Import RingSpec RingModel RingProofs PermModel MatModel MatSpec MatViewSpec MatProofs MatProofs2 MatProofs3 MatProofs5 MatProofs6 MatProofs7 MatProofs8 LatModel LatSpec LatProofs LatProofs2 LatProofs3.
Close Scope rs_scope.
Set Implicit Arguments.
Unset Strict Implicit.
Unset Printing Implicit Defensive.
Import GRing.Theory.
Local Open Scope ring_scope.

Section L.
Variable R : idomainType.
Notation O := (mc_ops R).
Notation mat := (matrix (T O)).
Lemma rspan_col_mx k1 k2 n (A : 'M[R]_(k1,n)) (B : 'M[R]_(k2,n)) x : rspan (col_mx A B) x <-> exists y z, [/\ rspan A y, rspan B z & x = y + z].
Proof.
  split=> [[c ->]|[y [z [[c ->] [d ->] ->]]]].
  - rewrite -{1}[c]hsubmxK mul_row_col. exists (lsubmx c *m A), (rsubmx c *m B). by split=> //; eexists.
  - exists (row_mx c d). by rewrite mul_row_col.
Qed.
Definition spans_row n (m : mat) (P : 'rV[R]_n -> Prop) : Prop := exists k (A : 'M[R]_(k,n)), represents m A /\ forall x, P x <-> rspan A x.
Lemma stack_list n (ms : seq mat) (Ps : seq ('rV[R]_n -> Prop)) : List.Forall2 (@spans_row n) ms Ps ->
  exists ss (J : 'M[R]_(sum_rows ss, n)), [/\ List.Forall2 shows ms ss, List.Forall (fun s => scols s = n) ss, (forall i j, stacked 0 ss (nat_of_ord i) (nat_of_ord j) = J i j) & forall x, rspan J x <-> sumset Ps x].
Proof.
  elim=> [|m P ms' Ps' [k [A [Hm HA]]] _ [ss [J [H1 H2 H3 H4]]]].
  - exists [::], (0 : 'M_(0,n)). split=> //; first by case. move=> x. split=> [[c ->]|->]; first by rewrite mulmx0. exists 0. by rewrite mul0mx.
  - exists (SMat k n (mxf A) :: ss), (col_mx A J : 'M[R]_(sum_rows (SMat k n (mxf A) :: ss), n)). split.
    + apply: List.Forall2_cons => //. exact: repr_shows.
    + exact: List.Forall_cons.
    + move=> i j. change 'I_(k + sum_rows ss) in (type of i). rewrite /stacked -/(stacked 0 ss) [srows _]/= [sentry _]/=. rewrite ltb_nat mxE. case: (splitP i) => i' Ei; rewrite Ei; first by rewrite mxfE.
      have -> : (k + i' - k)%coq_nat = i' by rewrite minusE addKn. exact: H3.
    + move=> x. rewrite rspan_col_mx /=. split=> -[y [z [Hy Hz ->]]]; exists y, z; split=> //; by [exact/HA|exact/H4].
Qed.
Lemma join_list n (ms : seq mat) (Ps : seq ('rV[R]_n -> Prop)) : List.Forall2 (@spans_row n) ms Ps ->
  exists j k (J : 'M[R]_(k, n)), [/\ join_rows n ms = Some j, represents j J & forall x, rspan J x <-> sumset Ps x].
Proof.
  move=> H. case: (stack_list H) => ss [J [H1 H2 H3 H4]]. case: (@join_rows_shows R 0 n ms ss H1 H2) => j [E S]. exists j, _, J. split=> //.
  move/shows_shape: S => /= S. exact: (shape_reprE S).
Qed.
Lemma join_lrows n k (ms : seq mat) (A : 'M[R]_(k,n)) : lrepr ms (fun i => row i A) -> exists j, join_rows n ms = Some j /\ represents j A.
Proof.
  move=> H. have Hm : forall m, List.In m ms -> rows m = 1%N /\ cols m = n /\ full_view m.
  { move=> m Hin. case: (lrepr_in H Hin) => i Hi. split; first exact: (repr_rows Hi). split; first exact: (repr_cols Hi).
    move=> a b /ltP Ha /ltP Hb. rewrite (repr_rows Hi) in Ha. rewrite (repr_cols Hi) in Hb. by have /= -> := repr_getE (Ordinal Ha) (Ordinal Hb) Hi. }
  have Hs : forall l : seq mat, (forall m, List.In m l -> rows m = 1%N) -> List.list_sum (List.map rows l) = length l.
  { elim=> [|m l IH] Hl //=. rewrite (Hl m) /=; last by left. rewrite IH // => m' Hm'. apply: Hl. by right. }
  case: (@join_rows_spec R n ms). { apply/List.Forall_forall => m /Hm [_ [E F]] //. }
  move=> j [E [Er [Ec [_ Hj]]]]. exists j. split=> //. case: (H) => L Hn. rewrite Hs in Er; last by move=> m /Hm [].
  apply/repr_get. split; first by rewrite Er L. split=> // i c. case: (Hn i) => m [Em Hrm]. have Hg := Hj i 0%N m c Em.
  rewrite Hs in Hg; last first. { move=> m' Hin. have : List.In m' ms by rewrite -(List.firstn_skipn i ms); apply/List.in_app_iff; left. by move/Hm => []. }
  rewrite List.firstn_length PeanoNat.Nat.min_l in Hg; last by rewrite L; apply/leP; exact: ltnW.
  rewrite PeanoNat.Nat.add_0_r in Hg. rewrite Hg; [|by rewrite (repr_rows Hrm); exact/ltP|exact/ltP].
  have /= -> := repr_getE (ord0 : 'I_1) c Hrm. by rewrite mxE.
Qed.
Lemma lspan_rows n k (Bs : 'I_k -> 'rV[R]_n) x : lspan Bs x <-> rspan (\matrix_(i, j) Bs i 0 j) x.
Proof.
  rewrite -lspan_row. have E : forall i, row i (\matrix_(i, j) Bs i 0 j) = Bs i by move=> i; apply/rowP => j; rewrite !mxE.
  split=> -[c ->]; exists c; apply: eq_bigr => i _; by rewrite E.
Qed.
Lemma indep_rows n k (Bs : 'I_k -> 'rV[R]_n) : independent Bs -> rfree (\matrix_(i, j) Bs i 0 j).
Proof.
  move=> H. apply/indep_row => c. have E : forall i, row i (\matrix_(i, j) Bs i 0 j) = Bs i by move=> i; apply/rowP => j; rewrite !mxE.
  move=> Hc. apply: H. rewrite -[RHS]Hc. apply: eq_bigr => i _. by rewrite E.
Qed.
End L.

Section Bez.
Variable R : idomainType.
Notation O := (mc_ops R).
Notation mat := (matrix (T O)).
Variable div : div_op O.
Variable ffa : ffa_op O.
Variable xgcd : R -> R -> R * R * R.
Hypothesis BZ : bezout_laws div ffa xgcd.

Lemma metasum_ok n (ms : seq mat) (Ps : seq ('rV[R]_n -> Prop)) : List.Forall2 (@spans_row R n) ms Ps ->
  exists t k (TT : 'M[R]_(k,n)), [/\ metamatrix_row_sum div ffa xgcd n ms = Some t, represents t TT, rfree TT & forall x, rspan TT x <-> sumset Ps x].
Proof.
  move=> H. rewrite /metamatrix_row_sum. have -> : List.forallb (fun m : mat => Nat.eqb (cols m) n) ms.
  { elim: H => [|m P ms' Ps' [k [A [Hm _]]] _ IH] //=. by rewrite (repr_cols Hm) PeanoNat.Nat.eqb_refl. }
  case: (join_list H) => j [k [J [-> Hj HJ]]] /=. case: (hermite_ok BZ Hj) => h [u [ud [pivs [t [TT [K [-> [Et Ht] _ _ [H1 H2 _ _]]]]]]]] /=.
  exists t, _, TT. split=> // x. by rewrite H2 HJ.
Qed.
Lemma sumset_unfl p q (Ps : seq ('M[R]_(p,q) -> Prop)) x : sumset (List.map (fun P y => P (unfl y)) Ps) (fl x) <-> sumset Ps x.
Proof.
  elim: Ps x => [|P Ps IH] x /=. { split=> [|->]; [rewrite -(fl0 R p q); exact: fl_inj|exact: fl0]. }
  split=> -[y [z [Hy Hz E]]].
  - exists (unfl y), (unfl z). split=> //; first by apply/IH; rewrite unflK. apply: fl_inj. by rewrite flD !unflK.
  - exists (fl y), (fl z). split; [by rewrite flK|exact/IH|by rewrite E flD].
Qed.
Lemma lat_sum_ok p q ls (Ps : seq ('M[R]_(p,q) -> Prop)) : List.Forall2 (@is_lattice R p q) ls Ps -> exists l, lat_sum div ffa xgcd p q ls = Some l /\ is_lattice l (sumset Ps).
Proof.
  move=> H. rewrite /lat_sum. have -> : List.forallb (fun l : linlat R => Nat.eqb (lrows l) p && Nat.eqb (lcols l) q) ls.
  { elim: H => [|l P ls' Ps' [k [A [[E1 E2 _ _] _]]] _ IH] //=. by rewrite E1 E2 !PeanoNat.Nat.eqb_refl. }
  case: (@metasum_ok (p * q) (List.map meta ls) (List.map (fun P y => P (unfl y)) Ps)).
  { elim: H => [|l P ls' Ps' Hl _ IH] //=. apply: List.Forall2_cons => //. move/is_latticeE: Hl => [k [B [[_ _ Hm _] HB]]]. exists k, B. split=> // x. by rewrite HB unflK. }
  move=> t [k [TT [-> Ht Hf HT]]] /=. eexists. split; first reflexivity. apply/is_latticeE. exists k, TT. split=> // M. by rewrite HT sumset_unfl.
Qed.
Lemma inter_core n k1 k2 (m1 m2 : mat) (M1 : 'M[R]_(k1,n)) (M2 : 'M[R]_(k2,n)) : represents m1 M1 -> represents m2 M2 -> rfree M1 -> rfree M2 ->
  exists j k (J : 'M[R]_(k,n)), [/\ (do n2 <- @neg O m2; do j <- join_rows n [:: m1; n2]; do ker <- row_kernel div ffa xgcd j;
     do rs <- mapM (fun i => do b <- @basis_matrix O ker i; do sub <- submatrix b [:: 0%N] (range 0 (rows m1)); unwrap (mul sub m1)) (range 0 (@lrank O ker)); join_rows n rs) = Some j,
     represents j J, rfree J & forall x, rspan J x <-> rspan M1 x /\ rspan M2 x].
Proof.
  move=> H1 H2 F1 F2. case: (neg_repr H2) => n2 [-> Hn] /=. case: (join2 H1 Hn) => j [-> Hj] /=. case: (row_kernel_ok BZ Hj) => ker [-> [k [Bs [HB HK]]]] /=.
  rewrite (lrank_ok HB) (repr_rows H1). pose K : 'M[R]_(k, k1 + k2) := \matrix_(i, j) Bs i 0 j. have EK : forall i, row i K = Bs i by move=> i; apply/rowP => c; rewrite !mxE.
  case: (@mapM_lrepr R 1 n k (fun i => row i (lsubmx K *m M1)) (fun i => do b <- @basis_matrix O ker i; do sub <- submatrix b [:: 0%N] (range 0 k1); unwrap (mul sub m1)) 0 k); first by rewrite subn0.
  { move=> i. rewrite add0n. case: (basis_matrix_ok i HB) => b [-> Hb] /=.
    case: (@submatrix_repr _ _ _ b (Bs i) [:: 0%N] (range 0 k1) 1 k1 id (fun i => lshift k2 i) Hb) => //.
    { by rewrite range_length /= PeanoNat.Nat.sub_0_r. }
    { move=> a. by rewrite ord1. }
    { move=> a. by rewrite LatProofs.nth_range ?subn0 //= ltn_ord. }
    move=> sub [-> Hsub] /=. case: (unwrap_mul Hsub H1) => c [-> Hc]. exists c. split=> //. have <- // : \matrix_(a, b0) Bs i a (lshift k2 b0) *m M1 = row i (lsubmx K *m M1).
    rewrite row_mul. congr (_ *m _). apply/matrixP => a b0. by rewrite !mxE ord1. }
  move=> rs [-> Hrs] /=. case: (join_lrows Hrs) => jj [-> Hjj]. exists jj, k, (lsubmx K *m M1). 
  have HK' : forall x : 'rV_(k1 + k2), rspan K x <-> lsubmx x *m M1 = rsubmx x *m M2.
  { move=> x. rewrite -lspan_rows -HK -{1}[x]hsubmxK mul_row_col mulmxN. split=> [/eqP|->]; last by rewrite subrr. by rewrite subr_eq0 => /eqP. }
  have HF : rfree K by apply: indep_rows; case: HB.
  split=> //.
  - move=> c. rewrite mulmxA => /F1 Hc. have : rspan K (c *m K) by exists c. move/HK'. have -> : lsubmx (c *m K) = c *m lsubmx K by rewrite -{1}[K]hsubmxK mul_mx_row row_mxKl.
    rewrite Hc mul0mx => /esym /F2 Hr. apply: HF. by rewrite -[c *m K]hsubmxK Hr -{1}[K]hsubmxK mul_mx_row row_mxKl Hc row_mx0.
  - move=> x. split=> [[c ->]|[[a Ha] [b Hb]]].
    + rewrite mulmxA. split; first by eexists. have : rspan K (c *m K) by exists c. move/HK'. have -> : lsubmx (c *m K) = c *m lsubmx K by rewrite -{1}[K]hsubmxK mul_mx_row row_mxKl.
      move=> ->. by eexists.
    + have : rspan K (row_mx a b) by apply/HK'; rewrite row_mxKl row_mxKr -Ha. move=> [c Hc]. exists c. rewrite mulmxA Ha. congr (_ *m _).
      have := congr1 lsubmx Hc. by rewrite row_mxKl -{1}[K]hsubmxK mul_mx_row row_mxKl.
Qed.
Lemma metainter_ok n k1 k2 (m1 m2 : mat) (M1 : 'M[R]_(k1,n)) (M2 : 'M[R]_(k2,n)) : represents m1 M1 -> represents m2 M2 -> rfree M1 -> rfree M2 ->
  exists j k (J : 'M[R]_(k,n)), [/\ metamatrix_row_intersection div ffa xgcd n m1 m2 = Some j, represents j J, rfree J & forall x, rspan J x <-> rspan M1 x /\ rspan M2 x].
Proof.
  move=> H1 H2 F1 F2. rewrite /metamatrix_row_intersection (repr_cols H1) (repr_cols H2) PeanoNat.Nat.eqb_refl (rank_ok BZ H1) (rank_ok BZ H2) /=.
  have -> := proj1 (rfree_rank BZ H1) F1. have -> := proj1 (rfree_rank BZ H2) F2. rewrite (repr_rows H1) (repr_rows H2) !PeanoNat.Nat.eqb_refl.
  case: (PeanoNat.Nat.ltb _ _); last exact: (inter_core H1 H2).
  case: (inter_core H2 H1 F2 F1) => j [k [J [E Hj Hf HJ]]]. exists j, k, J. split=> // x. by rewrite HJ; split=> -[].
Qed.
Lemma lat_pair_ok p q l1 l2 (P Q : 'M[R]_(p,q) -> Prop) : is_lattice l1 P -> is_lattice l2 Q -> exists l, lat_intersect_pair div ffa xgcd p q l1 l2 = Some l /\ is_lattice l (fun M => P M /\ Q M).
Proof.
  move=> /is_latticeE [k1 [B1 [[E1 E1' H1 F1] HP]]] /is_latticeE [k2 [B2 [[E2 E2' H2 F2] HQ]]]. rewrite /lat_intersect_pair E1 E1' E2 E2' !PeanoNat.Nat.eqb_refl /=.
  case: (metainter_ok H1 H2 F1 F2) => j [k [J [-> Hj Hf HJ]]] /=. case: (lat_check_ok BZ Hj) => b [-> Hb] /=. have -> : b by apply/Hb.
  eexists. split; first reflexivity. apply/is_latticeE. exists k, J. split=> // M. by rewrite HP HQ HJ.
Qed.
Lemma lat_fold_ok p q ls (Ps : seq ('M[R]_(p,q) -> Prop)) : List.Forall2 (@is_lattice R p q) ls Ps -> forall l Q, is_lattice l Q ->
  exists l', List.fold_left (fun acc l => do a <- acc; lat_intersect_pair div ffa xgcd p q a l) ls (Some l) = Some l' /\ is_lattice l' (fun M => Q M /\ List.Forall (fun P : _ -> Prop => P M) Ps).
Proof.
  elim=> [|l0 P ls' Ps' H0 _ IH] l Q Hl /=.
  - exists l. split=> //. apply: is_lattice_eq Hl => M. by split=> [|[]].
  - case: (lat_pair_ok Hl H0) => l1 [-> H1]. case: (IH l1 _ H1) => l' [-> H']. exists l'. split=> //. apply: is_lattice_eq H' => M. split=> [[[HQ HP] HF]|[HQ HF]].
    + split=> //. exact: List.Forall_cons.
    + by inversion HF.
Qed.
Lemma lat_intersect_ok p q ls (Ps : seq ('M[R]_(p,q) -> Prop)) : List.Forall2 (@is_lattice R p q) ls Ps ->
  exists l, lat_intersect div ffa xgcd p q ls = Some l /\ is_lattice l (fun M => List.Forall (fun P : _ -> Prop => P M) Ps).
Proof.
  move=> H. case: H => [|l P ls1 Ps1 Hl].
  - case: (@ident_repr R (p * q)) => i [E Hi]. rewrite /lat_intersect E /=. eexists. split; first reflexivity. apply/is_latticeE. exists _, 1%:M. split.
    + split=> // c. by rewrite mulmx1.
    + move=> M. split=> // _. exists (fl M). by rewrite mulmx1.
  - case=> [|l0 P0 ls2 Ps2 H0 H2].
    + exists l. split=> //. apply: is_lattice_eq Hl => M. split=> [H|H]; [exact: List.Forall_cons|by inversion H].
    + rewrite /lat_intersect. case: (lat_pair_ok Hl H0) => l1 [-> H1]. case: (lat_fold_ok H2 H1) => l' [-> H']. exists l'. split=> //. apply: is_lattice_eq H' => M. split=> [[[HQ HP] HF]|HF].
      * by do 2 (apply: List.Forall_cons => //).
      * inversion HF as [|? ? ? HF']. by inversion HF'.
Qed.
End Bez.
