(* C62: hyperplanes and basis extension, positive part.  As in LatProps the theorems are about any Bezout domain; what fails there
   (C62_hyperplanes_refuted, C62_extension_basis_refuted) holds over fields. *)
From Coq Require Import ZArith NArith.
From mathcomp Require Import all_ssreflect all_algebra.
From Coq Require Import Lia.
From Verif Require Import RingSpec RingModel PermModel MatModel MatSpec MatProofs2 ZRing MatInst LatModel LatSpec LatProofs LatProofs2 LatProofs3 LatProofs4 LatProofs5 LatProofs6 LatProofs7 LatProps.
Close Scope rs_scope.
Set Implicit Arguments.
Unset Strict Implicit.
Unset Printing Implicit Defensive.
Import GRing.Theory.
Local Open Scope ring_scope.

(* one family followed by another *)
Definition join_fam (X : Type) k e (As : 'I_k -> X) (Es : 'I_e -> X) (i : 'I_(k + e)) : X := match split i with inl a => As a | inr b => Es b end.

Section Bez.
Variable R : idomainType.
Notation O := (mc_ops R).
Notation mat := (matrix (T O)).
Variables (div : div_op O) (ffa : ffa_op O) (xgcd : R -> R -> R * R * R).
Hypothesis BZ : bezout_laws div ffa xgcd.
Variables p q : nat.
Implicit Types (M : 'M[R]_(p,q)).

Lemma sum_join k e (As : 'I_k -> 'M[R]_(p,q)) (Es : 'I_e -> 'M[R]_(p,q)) c :
  \sum_i c i *: join_fam As Es i = \sum_i c (lshift e i) *: As i + \sum_i c (rshift k i) *: Es i.
Proof. rewrite big_split_ord /=. congr (_ + _); apply: eq_bigr => i _; by rewrite /join_fam ?(unsplitK (inl i)) ?(unsplitK (inr i)). Qed.
Lemma span_join k (As : 'I_k -> 'M[R]_(p,q)) (Es : seq 'M[R]_(p,q)) M :
  lspan (join_fam As (fun i : 'I_(size Es) => Es`_i)) M <-> rspan (FB (flat As) Es) (fl M).
Proof.
  rewrite FB_span. split=> [[c ->]|[c [d E]]].
  - exists (\row_i c (lshift _ i)), (fun i => if insub i is Some j then c (rshift k j) else 0). rewrite sum_join flD fl_comb. congr (_ + _).
    transitivity ((\row_i c (rshift k i)) *m flat (fun i : 'I_(size Es) => Es`_i)); first by rewrite -fl_comb.
    rewrite mulmx_sum_row. apply: eq_bigr => i _. by rewrite row_flat valK mxE.
  - exists (fun i => match split i with inl a => c 0 a | inr b => d b end). apply: fl_inj. rewrite E sum_join flD !fl_comb. congr (_ + _).
    + congr (_ *m _). apply/rowP => i. by rewrite mxE (unsplitK (inl i)).
    + rewrite mulmx_sum_row. apply: eq_bigr => i _. by rewrite row_flat mxE (unsplitK (inr i)).
Qed.
Lemma indep_join k (As : 'I_k -> 'M[R]_(p,q)) (Es : seq 'M[R]_(p,q)) : sfree (flat As) Es -> independent (join_fam As (fun i : 'I_(size Es) => Es`_i)).
Proof.
  move=> H c E. case: (H (\row_i c (lshift _ i)) (fun i => if insub i is Some j then c (rshift k j) else 0)).
  - rewrite -(fl0 R p q) -E sum_join flD fl_comb. congr (_ + _).
    transitivity ((\row_i c (rshift k i)) *m flat (fun i : 'I_(size Es) => Es`_i)); last by rewrite -fl_comb.
    rewrite mulmx_sum_row. apply: eq_bigr => i _. by rewrite row_flat valK mxE.
  - move=> /rowP H1 H2 i. rewrite -(splitK i). case: (split i) => j /=; [by move: (H1 j); rewrite !mxE|by move: (H2 j (ltn_ord j)); rewrite valK].
Qed.

(* as_hyperplane_intersection never panics; it returns rows*cols - rank hyperplanes, each with a basis of rows*cols - 1 matrices; and
   if the lattice has less than full rank, their intersection is the lattice.  Missing: full rank, where the list is empty (below). *)
Theorem C62_hyperplanes_partial k l (Bs : 'I_k -> 'M[R]_(p,q)) : has_basis l Bs ->
  exists hs, [/\ as_hyperplane_intersection div ffa xgcd l = Some hs, length hs = (p * q - k)%N,
    forall h, List.In h hs -> exists Hs : 'I_(p * q).-1 -> 'M[R]_(p,q), has_basis h Hs &
    (k < p * q)%N -> exists Ps, List.Forall2 (@is_lattice R p q) hs Ps /\ forall M, lspan Bs M <-> List.Forall (fun P : _ -> Prop => P M) Ps].
Proof.
  move=> /islat_basis Hl. case: (hyper_ok BZ Hl) => hs [Es [E Hs HF Hhs]]. exists hs. split=> //.
  - rewrite -Hs -[RHS](size_iota 0). elim: Hhs => //= x y s t _ _ ->. by [].
  - move=> h Hh. have [i [Bh [HB _]]] : exists i, exists Bh : 'M[R]_((p * q).-1, p * q), islat (p := p) (q := q) h Bh /\ forall x, rspan Bh x <-> rspan (FB (flat Bs) (rem_at i Es)) x.
    { elim: Hhs Hh => [|i h' s t H' _ IH] //= [<-|]; [by exists i|exact: IH]. }
    exists (fam Bh). apply/islat_basis. by rewrite flat_fam.
  - move=> Hk. have Hs0 : (0 < size Es)%N by rewrite Hs subn_gt0.
    exists (List.map (fun i M => rspan (FB (flat Bs) (rem_at i Es)) (fl M)) (iota 0 (size Es))). split.
    + elim: Hhs => [|i h s t [Bh [H1 H2]] _ IH] /=; constructor=> //. apply/is_latticeE. exists (p * q).-1, Bh. split=> // M. symmetry. exact: H2.
    + move=> M. rewrite lspan_flat (inter_rem _ HF Hs0). split.
      * move=> H. apply/List.Forall_forall => P /List.in_map_iff [i [<- /MatProofs4.in_mem]]. rewrite mem_iota add0n => /andP[_ Hi]. exact: H.
      * move/List.Forall_forall => H i Hi. apply: (H (fun M => rspan (FB (flat Bs) (rem_at i Es)) (fl M))). apply/List.in_map_iff. exists i. split=> //. apply/MatProofs4.in_mem. by rewrite mem_iota add0n.
Qed.
(* for a lattice of full rank the answer is always the empty list: right exactly when the lattice is everything *)
Theorem C62_hyperplanes_full_rank l (Bs : 'I_(p * q) -> 'M[R]_(p,q)) : has_basis l Bs -> as_hyperplane_intersection div ffa xgcd l = Some [::].
Proof. move=> /C62_hyperplanes_partial [hs [-> L _ _]]. move: L. rewrite subnn. by case: hs. Qed.
(* and then the program's own intersection of the hyperplanes gives the lattice back *)
Theorem C62_hyperplanes_round_trip k l (Bs : 'I_k -> 'M[R]_(p,q)) : has_basis l Bs -> (k < p * q)%N ->
  exists hs l', [/\ as_hyperplane_intersection div ffa xgcd l = Some hs, lat_intersect div ffa xgcd p q hs = Some l', lat_equal div ffa xgcd l l' = Some true & is_lattice l' (lspan Bs)].
Proof.
  move=> Hb Hk. case: (C62_hyperplanes_partial Hb) => hs [E _ _ /(_ Hk) [Ps [H1 H2]]]. case: (C36_intersect BZ H1) => l' [E' Hl']. exists hs, l'.
  have Hl2 : is_lattice l' (lspan Bs) by apply: is_lattice_eq Hl' => M; symmetry.
  split=> //. have Hl1 : is_lattice l (lspan Bs) by exists k, Bs. case: (C36_equal BZ Hl1 Hl2) => b [-> Hb']. congr Some. by apply/Hb'.
Qed.

(* extension_basis of a inside b: rank(b) - rank(a) matrices of b, linearly independent together with the basis of a, and some nonzero
   multiple of every element of b is a combination of them.  Missing over a domain: the multiple can not always be 1. *)
Theorem C62_extension_basis_partial k m a b (As : 'I_k -> 'M[R]_(p,q)) (Bs : 'I_m -> 'M[R]_(p,q)) : has_basis a As -> has_basis b Bs -> (forall M, lspan As M -> lspan Bs M) ->
  (k <= m)%N /\ exists ext (Es : 'I_(m - k) -> 'M[R]_(p,q)), [/\ extension_basis div ffa xgcd a b = Some ext, represents_all ext Es, forall i, lspan Bs (Es i),
    independent (join_fam As Es) & forall M, lspan Bs M -> exists r, r != 0 /\ lspan (join_fam As Es) (r *: M)].
Proof.
  move=> /islat_basis Ha /islat_basis Hb Hsub. have Hsub' x : rspan (flat As) x -> rspan (flat Bs) x by move=> Hx; rewrite -[x]unflK; apply/lspan_flat/Hsub/lspan_flat; rewrite unflK.
  case: (ext_ok BZ Ha Hb Hsub') => ext [Es [E HE [Hs Hkm] HF HB]]. split=> //. move: Hs => Hs. rewrite -Hs. exists ext, (fun i => Es`_i).
  have HFB : rfree (FB (flat As) Es) by apply/FB_free.
  split=> //; [exact: ls_lrepr|..].
  - move=> i. case: (HB i (ltn_ord i)) => j ->. apply/lspan_flat. rewrite unflK. exact: rs_row.
  - exact: indep_join.
  - move=> M /lspan_flat HM. have [|r [Hr HrM]] := rs_out BZ (v := fl M) HFB.
    + have Hle : (map_mx (@FracField.tofrac R) (FB (flat As) Es) <= map_mx (@FracField.tofrac R) (flat Bs))%MS.
      { apply: rs_le => x. rewrite /FB rspan_col_mx => -[y [z [/Hsub' [c1 ->] /sq_comb [d ->] ->]]]. rewrite /comb.
        have : rspan (flat Bs) (\sum_(i < size Es) d i *: fl Es`_i).
        { have Hn n : (n <= size Es)%N -> rspan (flat Bs) (\sum_(i < n) d i *: fl Es`_i).
          { elim: n => [|n IH] Hn; first by rewrite big_ord0; exists 0; rewrite mul0mx. rewrite big_ord_recr /=. case: (IH (ltnW Hn)) => c2 ->. case: (HB n Hn) => j ->. rewrite unflK.
            exists (c2 + d n *: delta_mx 0 j). by rewrite mulmxDl -scalemxAl -rowE. }
          exact: Hn. }
        move=> [c2 ->]. exists (c1 + c2). by rewrite mulmxDl. }
      have [_ R1] := islat_rank BZ Hb. move/(rfree_repr BZ): HFB => R2. rewrite /frac_rank in R2.
      have Hge : (map_mx (@FracField.tofrac R) (flat Bs) <= map_mx (@FracField.tofrac R) (FB (flat As) Es))%MS.
      { rewrite -(geq_leqif (mxrank_leqif_sup Hle)) R1 R2 Hs subnKC //. }
      apply: submx_trans _ Hge. case: HM => c ->. by rewrite map_mxM submxMl.
    + exists r. split=> //. apply/span_join. have -> : fl (r *: M) = r *: fl M by apply/rowP => n; rewrite !mxE. exact: HrM.
Qed.
(* it insists on the inclusion: otherwise the debug assertion fires *)
Theorem C62_extension_not_contained a b P Q : is_lattice a P -> is_lattice b Q -> ~ (forall M, P M -> Q M) -> extension_basis div ffa xgcd a b = None.
Proof.
  move=> Ha Hb Hn. rewrite /extension_basis. case: (contains_sublattice_ok BZ Hb Ha) => x [-> Hx]. case: (Nat.eqb _ _) => //=. case: x Hx => // Hx. by case: Hn; apply/Hx.
Qed.
End Bez.
Print Assumptions C62_hyperplanes_partial. Print Assumptions C62_hyperplanes_full_rank. Print Assumptions C62_hyperplanes_round_trip.
Print Assumptions C62_extension_basis_partial. Print Assumptions C62_extension_not_contained.

(* ------------------------------------------------------------------ over a field nothing is missing *)
Section Field.
Variable F : fieldType.
Notation O := (mc_ops F).
Variables (div : div_op O) (ffa : ffa_op O) (xgcd : F -> F -> F * F * F).
Hypothesis BZ : @bezout_laws F div ffa xgcd.
Variables p q : nat.
Theorem C62_hyperplanes_field k l (Bs : 'I_k -> 'M[F]_(p,q)) : has_basis l Bs ->
  exists hs, [/\ as_hyperplane_intersection div ffa xgcd l = Some hs, length hs = (p * q - k)%N,
    forall h, List.In h hs -> exists Hs : 'I_(p * q).-1 -> 'M[F]_(p,q), has_basis h Hs &
    exists Ps, List.Forall2 (@is_lattice F p q) hs Ps /\ forall M, lspan Bs M <-> List.Forall (fun P : _ -> Prop => P M) Ps].
Proof.
  move=> Hb. case: (C62_hyperplanes_partial BZ Hb) => hs [E L H1 H2]. exists hs. split=> //. case: (ltnP k (p * q)) => Hk; first exact: H2.
  have Ehs : hs = [::] by move: L; rewrite (eqP (_ : p * q - k == 0)%N) ?subn_eq0 //; case: (hs). exists [::]. split; first by rewrite Ehs; constructor. move=> M. split=> // _.
  have /islat_basis [_ _ _ Hf] := Hb. apply/lspan_flat. have Hr := rfree_repr BZ (flat Bs).
  have Erk : frac_rank (flat Bs) = \rank (flat Bs) by rewrite /frac_rank mxrank_map.
  case: Hr => /(_ Hf) Hr _. have Hfull : row_full (flat Bs). { apply/eqP. apply/eqP. rewrite eqn_leq rank_leq_col. by rewrite -Erk Hr. }
  exists (fl M *m pinvmx (flat Bs)). by rewrite mulmxKpV // submx_full.
Qed.
Theorem C62_extension_basis_field k m a b (As : 'I_k -> 'M[F]_(p,q)) (Bs : 'I_m -> 'M[F]_(p,q)) : has_basis a As -> has_basis b Bs -> (forall M, lspan As M -> lspan Bs M) ->
  (k <= m)%N /\ exists ext (Es : 'I_(m - k) -> 'M[F]_(p,q)), [/\ extension_basis div ffa xgcd a b = Some ext, represents_all ext Es,
    independent (join_fam As Es) & forall M, lspan Bs M <-> lspan (join_fam As Es) M].
Proof.
  move=> Ha Hb Hs. case: (C62_extension_basis_partial BZ Ha Hb Hs) => Hk [ext [Es [E HE H1 H2 H3]]]. split=> //. exists ext, Es. split=> // M. split.
  - move=> /H3 [r [Hr [c Ec]]]. exists (fun i => r^-1 * c i). under eq_bigr do rewrite -scalerA. by rewrite -scaler_sumr -Ec scalerA mulVf // scale1r.
  - move=> [c ->]. rewrite sum_join. have S1 : lspan Bs (\sum_i c (lshift (m - k) i) *: As i) by apply: Hs; exists (fun i => c (lshift _ i)).
    have S2 : lspan Bs (\sum_i c (rshift k i) *: Es i).
    { elim/big_ind: _ => [|x y [cx ->] [cy ->]|i _]; first by exists (fun=> 0); rewrite big1 // => i _; rewrite scale0r.
      - exists (fun i => cx i + cy i). rewrite -big_split. apply: eq_bigr => i _. by rewrite scalerDl.
      - case: (H1 i) => ci ->. exists (fun j => c (rshift k i) * ci j). rewrite scaler_sumr. apply: eq_bigr => j _. by rewrite scalerA. }
    case: S1 => c1 ->. case: S2 => c2 ->. exists (fun i => c1 i + c2 i). rewrite -big_split. apply: eq_bigr => i _. by rewrite scalerDl.
Qed.
End Field.
Print Assumptions C62_hyperplanes_field. Print Assumptions C62_extension_basis_field.

(* ------------------------------------------------------------------ concrete cases: in Z^3, the line through (2,0,4), and inside a plane *)
Definition z_hyp := @as_hyperplane_intersection ZO Zdiv Zffa Zxgcd.
Example C62_ex : (do l <- z_from_basis 1 3 [:: zm 1 3 [:: Zpos 2; Z0; Zpos 4]]; do hs <- z_hyp l; Some (List.map (fun h => elems (meta h)) hs)) =
    Some [:: [:: Zpos 2; Z0; Zpos 4; Z0; Zpos 1; Z0]; [:: Zpos 1; Z0; Z0; Z0; Z0; Zpos 4]] /\
  (do a <- z_from_basis 1 3 [:: zm 1 3 [:: Zpos 2; Z0; Zpos 4]]; do b <- z_from_basis 1 3 [:: zm 1 3 [:: Zpos 1; Z0; Zpos 2]; zm 1 3 [:: Z0; Zpos 3; Zpos 1]];
   do e <- @extension_basis ZO Zdiv Zffa Zxgcd a b; Some (List.map (fun h => elems h) e)) = Some [:: [:: Z0; Zpos 3; Zpos 1]].
Proof. vm_compute. by []. Qed.
