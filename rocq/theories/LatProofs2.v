(* Building lattices: spans, kernels, joins *)
From Coq Require Import NArith.
From mathcomp Require Import all_ssreflect all_algebra all_fingroup.
From Coq Require Import Lia.
From Verif Require Import RingSpec RingModel RingProofs PermModel MatModel MatSpec MatViewSpec MatProofs MatProofs2 MatProofs3 MatProofs5 MatProofs6 MatProofs7 MatProofs8 LatModel LatSpec LatProofs.
Close Scope rs_scope.
Set Implicit Arguments.
Unset Strict Implicit.
Unset Printing Implicit Defensive.
Import GRing.Theory.
Local Open Scope ring_scope.

Section L.
Variable R : idomainType.
Notation O := (mc_ops R).
Notation mat := (matrix (T O)).
(* a list of matrices representing a family *)
Definition lrepr p q k (ms : seq mat) (Bs : 'I_k -> 'M[R]_(p,q)) : Prop :=
  length ms = k /\ forall i : 'I_k, exists m, List.nth_error ms i = Some m /\ represents m (Bs i).
Lemma lrepr_in p q k (ms : seq mat) (Bs : 'I_k -> 'M[R]_(p,q)) m : lrepr ms Bs -> List.In m ms -> exists i, represents m (Bs i).
Proof.
  move=> [L H] /(@List.In_nth_error _ _ _) [i Hi]. have Hk : (i < k)%N by rewrite -L; apply/ltP/List.nth_error_Some; rewrite Hi.
  exists (Ordinal Hk). case: (H (Ordinal Hk)) => m' []. rewrite /= Hi => -[<-] //.
Qed.
Lemma mapM_lrepr p q k (Bs : 'I_k -> 'M[R]_(p,q)) (f : nat -> option mat) a b : (b - a)%N = k ->
  (forall i : 'I_k, exists m, f (a + i)%N = Some m /\ represents m (Bs i)) -> exists ms, mapM f (range a b) = Some ms /\ lrepr ms Bs.
Proof.
  move=> Hk Hf. case: (@mapM_total nat mat f (range a b)).
  - move=> x /in_rangeP/andP[H1 H2]. have Hx : (x - a < k)%N by rewrite -Hk ltn_sub2r // (leq_ltn_trans H1).
    case: (Hf (Ordinal Hx)) => m []. rewrite /= subnKC // => -> //.
  - move=> ms [E [L Hn]]. exists ms. split=> //. split; first by rewrite L range_length.
    move=> i. case: (Hf i) => m [Em Hm]. exists m. split=> //. rewrite (Hn i (a + i)%N) //. rewrite /range.
    rewrite (@List.nth_error_nth' _ _ _ 0%N); last by rewrite List.seq_length; apply/ltP; rewrite minusE Hk.
    by rewrite List.seq_nth //; apply/ltP; rewrite minusE Hk.
Qed.
Lemma map_lrepr p q k p' q' (f : mat -> mat) (F : 'M[R]_(p,q) -> 'M[R]_(p',q')) (ms : seq mat) (Bs : 'I_k -> 'M[R]_(p,q)) : (forall m M, represents m M -> represents (f m) (F M)) ->
  lrepr ms Bs -> lrepr (List.map f ms) (fun i => F (Bs i)).
Proof.
  move=> H [L Hn]. split; first by rewrite List.map_length. move=> i. case: (Hn i) => m [E Hm]. exists (f m). split; last exact: H.
  by rewrite List.nth_error_map E.
Qed.
Lemma m_idx_ok p q (n : 'I_(p * q)) : m_idx_to_rc p q n = Some (n %/ q, n %% q)%N.
Proof.
  rewrite /m_idx_to_rc leb_nat (leqNgt _ n) (ltn_ord n) /= nat_div nat_mod //. case: q n => [|q] [n /=] //. by rewrite muln0.
Qed.
Lemma m_rc_ok p q (i : 'I_p) (j : 'I_q) : m_rc_to_idx p q i j = Some (i * q + j)%N.
Proof. by rewrite /m_rc_to_idx !leb_nat !(leqNgt _ (nat_of_ord _)) !ltn_ord /= addnC. Qed.
Lemma mats_to_rows_ok p q k (ms : seq mat) (Bs : 'I_k -> 'M[R]_(p,q)) : lrepr ms Bs -> exists m, mats_to_rows (R := O) p q ms = Some m /\ represents m (flat Bs).
Proof.
  move=> H. rewrite /mats_to_rows. have -> : List.forallb (fun m : mat => Nat.eqb (rows m) p && Nat.eqb (cols m) q) ms.
  { apply/List.forallb_forall => m Hm. case: (lrepr_in H Hm) => i Hi. by rewrite (repr_rows Hi) (repr_cols Hi) !PeanoNat.Nat.eqb_refl. }
  case: H => L Hn. rewrite L. apply: construct_repr => i j. rewrite m_idx_ok /=. case: (Hn i) => m [-> Hm] /=.
  by rewrite (@repr_getE _ _ _ m (Bs i) (Ordinal (row_lt j)) (Ordinal (col_lt j)) Hm) mxE.
Qed.
Lemma mats_to_rows_bad p q (ms : seq mat) m : List.In m ms -> (rows m, cols m) <> (p, q) -> mats_to_rows (R := O) p q ms = None.
Proof.
  move=> Hin Hne. rewrite /mats_to_rows. case E: (List.forallb _ ms) => //. move/List.forallb_forall: E => /(_ m Hin) /andP[/PeanoNat.Nat.eqb_eq H1 /PeanoNat.Nat.eqb_eq H2].
  by case: Hne; rewrite H1 H2.
Qed.

Lemma lspan_row n k (K : 'M[R]_(k, n)) x : lspan (fun i => row i K) x <-> rspan K x.
Proof.
  split=> [[c ->]|[c ->]]; first by exists (\row_i c i); rewrite mulmx_sum_row; apply: eq_bigr => i _; rewrite mxE.
  exists (fun i => c 0 i). by rewrite mulmx_sum_row.
Qed.
Lemma indep_row n k (K : 'M[R]_(k, n)) : independent (fun i => row i K) <-> rfree K.
Proof.
  split=> H c.
  - rewrite mulmx_sum_row => Hc. apply/rowP => i. by rewrite (H _ Hc) mxE.
  - move=> Hc i. have := H (\row_i c i). rewrite mulmx_sum_row (eq_bigr (fun i => c i *: row i K)) => [|j _]; last by rewrite mxE.
    move=> /(_ Hc) /rowP /(_ i). by rewrite !mxE.
Qed.
Lemma lspan_tr p q k (Bs : 'I_k -> 'M[R]_(p,q)) x : lspan (fun i => (Bs i)^T) x <-> lspan Bs x^T.
Proof.
  split=> [[c ->]|[c E]]; exists c; first by rewrite linear_sum; apply: eq_bigr => i _; rewrite linearZ /= trmxK.
  rewrite -[x]trmxK E linear_sum. apply: eq_bigr => i _. by rewrite linearZ.
Qed.
Lemma indep_tr p q k (Bs : 'I_k -> 'M[R]_(p,q)) : independent Bs -> independent (fun i => (Bs i)^T).
Proof. move=> H c Hc. apply: H. apply: trmx_inj. rewrite trmx0 -[RHS]Hc linear_sum. apply: eq_bigr => i _. by rewrite linearZ. Qed.

(* a lattice seen through its metamatrix *)
Definition islat p q (l : linlat R) k (B : 'M[R]_(k, p * q)) : Prop := [/\ lrows l = p, lcols l = q, represents (meta l) B & rfree B].
Lemma islat_basis p q (l : linlat R) k (Bs : 'I_k -> 'M[R]_(p,q)) : has_basis l Bs <-> islat l (flat Bs).
Proof. split=> -[H1 H2 H3 H4]; split=> //; exact/indep_flat. Qed.
Lemma is_latticeE p q (l : linlat R) (P : 'M[R]_(p,q) -> Prop) : is_lattice l P <-> exists k (B : 'M[R]_(k, p * q)), islat l B /\ forall M, P M <-> rspan B (fl M).
Proof.
  split=> [[k [Bs [H1 H2]]]|[k [B [H1 H2]]]].
  - exists k, (flat Bs). split; first exact/islat_basis. move=> M. rewrite H2. exact: lspan_flat.
  - exists k, (fam B). split; first by apply/islat_basis; rewrite flat_fam. move=> M. by rewrite H2 lspan_flat flat_fam.
Qed.
Lemma is_lattice_eq p q (l : linlat R) (P Q : 'M[R]_(p,q) -> Prop) : (forall M, P M <-> Q M) -> is_lattice l P -> is_lattice l Q.
Proof. move=> H [k [Bs [H1 H2]]]. exists k, Bs. split=> // M. by rewrite -H. Qed.
End L.

Section Bez.
Variable R : idomainType.
Notation O := (mc_ops R).
Notation mat := (matrix (T O)).
Variable div : div_op O.
Variable ffa : ffa_op O.
Variable xgcd : R -> R -> R * R * R.
Hypothesis BZ : bezout_laws div ffa xgcd.
Notation hermite := (row_hermite_algorithm div ffa xgcd).

Lemma lat_check_ok p q k m (B : 'M[R]_(k, p * q)) : represents m B -> exists b, lat_check div ffa xgcd (Lat m p q) = Some b /\ (b <-> rfree B).
Proof.
  move=> H. rewrite /lat_check /= (repr_cols H) PeanoNat.Nat.eqb_refl /= (rank_ok BZ H) /= (repr_rows H) eqb_nat. eexists. split; first reflexivity.
  rewrite (rfree_rank BZ H). split=> [/eqP|->] //.
Qed.
Lemma from_basis_ok p q k (ms : seq mat) (Bs : 'I_k -> 'M[R]_(p,q)) : lrepr ms Bs -> independent Bs -> exists l, from_basis div ffa xgcd p q ms = Some l /\ has_basis l Bs.
Proof.
  move=> H HI. rewrite /from_basis. case: (mats_to_rows_ok H) => m [-> Hm] /=. case: (lat_check_ok Hm) => b [-> Hb] /=.
  have -> : b by apply/Hb/indep_flat. eexists. split; first reflexivity. by split.
Qed.
Lemma from_basis_dep p q k (ms : seq mat) (Bs : 'I_k -> 'M[R]_(p,q)) : lrepr ms Bs -> ~ independent Bs -> from_basis div ffa xgcd p q ms = None.
Proof.
  move=> H HI. rewrite /from_basis. case: (mats_to_rows_ok H) => m [-> Hm] /=. case: (lat_check_ok Hm) => b [-> Hb] /=.
  case: b Hb => // -[Hb _]. case: HI. exact/indep_flat/Hb.
Qed.
Lemma from_span_ok p q k (ms : seq mat) (Bs : 'I_k -> 'M[R]_(p,q)) : lrepr ms Bs -> exists l, from_span div ffa xgcd p q ms = Some l /\ is_lattice l (lspan Bs).
Proof.
  move=> H. rewrite /from_span. case: (mats_to_rows_ok H) => m [-> Hm] /=.
  case: (hermite_ok BZ Hm) => h [u [ud [pivs [t [TT [K [-> [Et Ht] _ _ [H1 H2 _ _]]]]]]]] /=. rewrite Et /=.
  case: (lat_check_ok Ht) => b [-> Hb] /=. have -> : b by apply/Hb. eexists. split; first reflexivity.
  apply/is_latticeE. exists _, TT. split=> // M. rewrite lspan_flat. by rewrite H2.
Qed.
Lemma sub_one_col p q (m : mat) (M : 'M[R]_(p,q)) (i : 'I_q) : represents m M ->
  exists t, submatrix m (range 0 p) [:: nat_of_ord i] = Some t /\ represents t (col i M).
Proof.
  move=> Hm. case: (@submatrix_repr _ p q m M (range 0 p) [:: nat_of_ord i] p 1 id (fun _ => i) Hm) => //.
  - by rewrite range_length /= PeanoNat.Nat.sub_0_r.
  - move=> j. by rewrite LatProofs.nth_range ?subn0 //= ltn_ord.
  - move=> i0. by rewrite ord1.
  - move=> t [E Ht]. by exists t.
Qed.
Lemma row_span_ok p q a (A : 'M[R]_(p,q)) : represents a A -> exists l, row_span div ffa xgcd a = Some l /\ is_lattice l (fun x : 'rV[R]_q => exists c, x = c *m A).
Proof.
  move=> H. rewrite /row_span (repr_rows H) (repr_cols H).
  case: (@mapM_lrepr R 1 q p (fun i => row i A) (fun r => submatrix a [:: r] (range 0 q)) 0 p); first by rewrite subn0.
  - move=> i. exact: (sub_one_row i H).
  - move=> ms [-> Hms] /=. case: (from_span_ok Hms) => l [-> Hl]. exists l. split=> //. apply: is_lattice_eq Hl => M. exact: lspan_row.
Qed.
Lemma col_span_ok p q a (A : 'M[R]_(p,q)) : represents a A -> exists l, col_span div ffa xgcd a = Some l /\ is_lattice l (fun x : 'cV[R]_p => exists c, x = A *m c).
Proof.
  move=> H. rewrite /col_span (repr_rows H) (repr_cols H).
  case: (@mapM_lrepr R p 1 q (fun i => col i A) (fun r => submatrix a (range 0 p) [:: r]) 0 q); first by rewrite subn0.
  - move=> i. exact: (sub_one_col i H).
  - move=> ms [-> Hms] /=. case: (from_span_ok Hms) => l [-> Hl]. exists l. split=> //. apply: is_lattice_eq Hl => M.
    split=> [[c ->]|[c ->]].
    + exists (\col_i c i). apply: trmx_inj. rewrite trmx_mul mulmx_sum_row linear_sum. apply: eq_bigr => i _. rewrite linearZ /= !mxE. congr (_ *: _). by rewrite tr_col.
    + exists (fun i => c i 0). apply: trmx_inj. rewrite trmx_mul mulmx_sum_row linear_sum. apply: eq_bigr => i _. rewrite linearZ /= !mxE. congr (_ *: _). by rewrite tr_col.
Qed.
Lemma row_kernel_ok p q a (A : 'M[R]_(p,q)) : represents a A -> exists l, row_kernel div ffa xgcd a = Some l /\ is_lattice l (fun x : 'rV[R]_p => x *m A = 0).
Proof.
  move=> H. rewrite /row_kernel. case: (hermite_ok BZ H) => h [u [ud [pivs [t [TT [K [-> _ [Hk _] [U Hu HU] [_ _ H3 H4]]]]]]]] /=. rewrite (repr_rows Hu) (repr_cols Hu).
  case: (@mapM_lrepr R 1 p (p - size pivs) (fun i => row i K) (fun r => submatrix u [:: r] (range 0 p)) (size pivs) p erefl); first by move=> i; case: (HU i) => j [<- ->]; exact: sub_one_row.
  move=> ms [-> Hms] /=.
  case: (from_basis_ok Hms) => [|l [-> Hl]]; first exact/indep_row. exists l. split=> //. exists _, (fun i => row i K). split=> // M. by rewrite lspan_row H4.
Qed.
Lemma col_kernel_ok p q a (A : 'M[R]_(p,q)) : represents a A -> exists l, col_kernel div ffa xgcd a = Some l /\ is_lattice l (fun x : 'cV[R]_q => A *m x = 0).
Proof.
  move=> H. rewrite /col_kernel /col_hermite_algorithm. case: (hermite_ok BZ (repr_tr H)) => h [u [ud [pivs [t [TT [K [-> _ [Hk _] [U Hu HU] [_ _ H3 H4]]]]]]]] /=.
  have Hv := repr_tr Hu. rewrite (repr_rows Hv) (repr_cols Hv).
  case: (@mapM_lrepr R q 1 (q - size pivs) (fun i => (row i K)^T) (fun r => submatrix (transpose u) (range 0 q) [:: r]) (size pivs) q erefl).
  { move=> i. case: (HU i) => j [<- ->]. rewrite tr_row. exact: sub_one_col. }
  move=> ms [-> Hms] /=. have HI : independent (fun i => (row i K)^T) by apply/indep_tr/indep_row.
  case: (from_basis_ok Hms HI) => l [-> Hl]. exists l. split=> //. exists _, (fun i => (row i K)^T). split=> // M. rewrite lspan_tr lspan_row H4.
  split=> E; apply: trmx_inj; by rewrite trmx_mul ?trmxK E trmx0.
Qed.
End Bez.
