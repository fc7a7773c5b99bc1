(* Extending a lattice to full rank, one unit matrix at a time (as_hyperplane_intersection) *)
From Coq Require Import NArith.
From mathcomp Require Import all_ssreflect all_algebra all_fingroup.
From Coq Require Import Lia.
From Verif Require Import RingSpec RingModel RingProofs PermModel MatModel MatSpec MatViewSpec MatProofs MatProofs2 MatProofs3 MatProofs5 MatProofs6 MatProofs7 MatProofs8 LatModel LatSpec LatLoops LatProofs LatProofs2 LatProofs3 LatProofs4.
Close Scope rs_scope.
Set Implicit Arguments.
Unset Strict Implicit.
Unset Printing Implicit Defensive.
Import GRing.Theory.
Local Open Scope ring_scope.

From Verif Require Import LatProofs5.
Section S.
Variable R : idomainType.
Notation O := (mc_ops R).
Notation mat := (matrix (T O)).
Notation fr := (map_mx (@FracField.tofrac R)).
Lemma fr0 m n : fr (0 : 'M[R]_(m,n)) = 0. Proof. exact: map_mx0. Qed.
Lemma rs_row k n (A : 'M[R]_(k,n)) i : rspan A (row i A).
Proof. exists (delta_mx 0 i). by rewrite -rowE. Qed.
Lemma rs_le k k' n (A : 'M[R]_(k,n)) (B : 'M[R]_(k',n)) : (forall x, rspan A x -> rspan B x) -> (fr A <= fr B)%MS.
Proof. move=> H. apply/row_subP => i. rewrite -map_row. case: (H _ (rs_row A i)) => c ->. by rewrite map_mxM submxMl. Qed.
Lemma rs_in k n (B : 'M[R]_(k,n)) (v : 'rV[R]_n) r : r != 0 -> rspan B (r *: v) -> (fr v <= fr B)%MS.
Proof.
  move=> Hr [c E]. have E' : (FracField.tofrac r) *: fr v = fr c *m fr B by rewrite -map_mxM -E map_mxZ.
  rewrite -(eqmx_scale (fr v) (a := FracField.tofrac r)) ?E' ?submxMl //. by rewrite tofrac_eq0.
Qed.
Section PQ.
Variables p q : nat.
Implicit Types (Es : seq 'M[R]_(p,q)) (v : 'M[R]_(p,q)).
Definition sq Es : 'M[R]_(size Es, p * q) := flat (fun i => Es`_i).
Definition comb Es (d : nat -> R) : 'rV[R]_(p * q) := \sum_(i < size Es) d i *: fl Es`_i.
Lemma sq_comb Es x : rspan (sq Es) x <-> exists d, x = comb Es d.
Proof.
  split=> [[c ->]|[d ->]].
  - exists (fun i => if insub i is Some j then c 0 j else 0). rewrite mulmx_sum_row. apply: eq_bigr => i _. by rewrite row_flat valK.
  - exists (\row_i d i). rewrite mulmx_sum_row. apply: eq_bigr => i _. by rewrite row_flat mxE.
Qed.
Lemma comb_rcons Es v d : comb (rcons Es v) d = comb Es d + d (size Es) *: fl v.
Proof.
  rewrite /comb size_rcons big_ord_recr /= nth_rcons ltnn eqxx. congr (_ + _). apply: eq_bigr => i _. by rewrite nth_rcons ltn_ord.
Qed.
Definition rem_at i Es : seq 'M[R]_(p,q) := take i Es ++ drop i.+1 Es.
Lemma size_rem i Es : (i < size Es)%N -> size (rem_at i Es) = (size Es).-1.
Proof. move=> H. rewrite size_cat size_takel ?(ltnW H) // size_drop subnS -subn1 addnBA ?subn1 ?subn_gt0 //. by rewrite subnKC // ltnW. Qed.
Lemma nth_rem i Es j : (i < size Es)%N -> (rem_at i Es)`_j = Es`_(bump i j).
Proof.
  move=> H. rewrite nth_cat size_takel ?(ltnW H) // /bump. case: ltnP => Hj; first by rewrite nth_take // leqNgt Hj.
  by rewrite nth_drop /= add1n addSn subnKC.
Qed.
Lemma comb_rem i Es d : (i < size Es)%N -> d i = 0 -> comb Es d = comb (rem_at i Es) (fun j => d (bump i j)).
Proof.
  move=> H Hd. rewrite /comb (size_rem H). move: (H). case E: (size Es) => [|n] // Hi /=. rewrite (bigD1_ord (Ordinal Hi)) //= Hd scale0r add0r.
  apply: eq_bigr => j _. by rewrite nth_rem.
Qed.
Lemma rem_comb i Es d : (i < size Es)%N -> exists d', d' i = 0 /\ comb (rem_at i Es) d = comb Es d'.
Proof.
  move=> H. exists (fun m => if m == i then 0 else d (unbump i m)). rewrite eqxx. split=> //. rewrite (comb_rem H); last by rewrite eqxx.
  apply: eq_bigr => j _. by rewrite eq_sym (negPf (neq_bump i j)) bumpK.
Qed.
Lemma comb_ext Es d d' : (forall i, (i < size Es)%N -> d i = d' i) -> comb Es d = comb Es d'.
Proof. move=> H. apply: eq_bigr => i _. by rewrite H. Qed.
Lemma combB Es d d' : comb Es (fun i => d i - d' i) = comb Es d - comb Es d'.
Proof. rewrite /comb -sumrB. apply: eq_bigr => i _. by rewrite scalerBl. Qed.
(* a basis together with further matrices *)
Section B.
Variables (k : nat) (B : 'M[R]_(k, p * q)).
Definition FB Es := col_mx B (sq Es).
Lemma FB_span Es x : rspan (FB Es) x <-> exists (c : 'rV_k) d, x = c *m B + comb Es d.
Proof.
  rewrite rspan_col_mx. split=> [[y [z [[c ->] /sq_comb [d ->] ->]]]|[c [d ->]]]; first by exists c, d.
  exists (c *m B), (comb Es d). split=> //; first by exists c. apply/sq_comb. by exists d.
Qed.
Definition sfree Es := forall (c : 'rV_k) d, c *m B + comb Es d = 0 -> c = 0 /\ forall i, (i < size Es)%N -> d i = 0.
Lemma FB_free Es : rfree (FB Es) <-> sfree Es.
Proof.
  split=> H.
  - move=> c d E.
    have E1 : row_mx c (\row_(i < size Es) d i) = 0.
    { apply: H. rewrite /FB mul_row_col. rewrite -{}E. congr (_ + _). rewrite mulmx_sum_row. apply: eq_bigr => i _. by rewrite row_flat mxE. }
    move/eqP: E1. rewrite row_mx_eq0 => /andP[/eqP-> /eqP/rowP E2]. split=> // i Hi. move: (E2 (Ordinal Hi)). by rewrite !mxE.
  - move=> c. rewrite -[c]hsubmxK /FB mul_row_col => E. case: (H (lsubmx c) (fun i => if insub i is Some j then rsubmx c 0 j else 0)).
    + rewrite -E. congr (_ + _). rewrite mulmx_sum_row. apply: eq_bigr => i _. by rewrite row_flat valK.
    + move=> -> Hd. suff -> : rsubmx c = 0 by rewrite row_mx0. apply/rowP => i. move: (Hd i (ltn_ord i)). by rewrite valK !mxE.
Qed.
Lemma sfree_rem i Es : (i < size Es)%N -> sfree Es -> sfree (rem_at i Es).
Proof.
  move=> Hi H c d. case: (rem_comb d Hi) => d' [D0 E]. rewrite E => /H [-> Hd]. split=> // j Hj.
  (* the coefficients *)
  have : comb (rem_at i Es) d = comb Es (fun m => if m == i then 0 else d (unbump i m)).
  { rewrite (comb_rem Hi); last by rewrite eqxx. apply: eq_bigr => m _. by rewrite eq_sym (negPf (neq_bump i m)) bumpK. }
  rewrite E => E'. case: (H 0 (fun m => d' m - (if m == i then 0 else d (unbump i m)))); first by rewrite mul0mx add0r combB E' subrr.
  move=> _ Hd'. rewrite size_rem // in Hj. have Hb : (bump i j < size Es)%N.
  { rewrite /bump. move: Hj. case: (size Es) Hi => // n _ /= Hj. by case: (i <= j)%N; rewrite ?add1n ?add0n ?ltnS // ltnW. }
  move: (Hd' _ Hb). rewrite Hd // sub0r eq_sym (negPf (neq_bump i j)) bumpK => /eqP. by rewrite oppr_eq0 => /eqP.
Qed.
(* the lattice is the intersection of the hyperplanes *)
Lemma inter_rem Es x : sfree Es -> (0 < size Es)%N -> (rspan B x <-> forall i, (i < size Es)%N -> rspan (FB (rem_at i Es)) x).
Proof.
  move=> HF H0. split=> [[c ->] i Hi|H].
  - apply/FB_span. exists c, (fun=> 0). rewrite /comb big1 ?addr0 // => j _. by rewrite scale0r.
  - have K i : (i < size Es)%N -> exists (c : 'rV_k) d, d i = 0 /\ x = c *m B + comb Es d.
    { move=> Hi. move/FB_span: (H i Hi) => [c [d ->]]. case: (rem_comb d Hi) => d' [D0 ->]. by exists c, d'. }
    case: (K 0%N H0) => c [d [_ Ex]]. exists c. rewrite Ex. suff -> : comb Es d = 0 by rewrite addr0.
    rewrite /comb big1 // => -[i Hi] _ /=. suff -> : d i = 0 by rewrite scale0r.
    case: (K i Hi) => c' [d' [D0 Ex']]. case: (HF (c - c') (fun j => d j - d' j)).
    + rewrite combB mulmxBl addrACA -opprD -Ex -Ex'. exact: subrr.
    + move=> _ /(_ i Hi). by rewrite D0 subr0.
Qed.
End B.
End PQ.
End S.

Section Bez.
Variable R : idomainType.
Notation O := (mc_ops R).
Notation mat := (matrix (T O)).
Notation fr := (map_mx (@FracField.tofrac R)).
Variable div : div_op O.
Variable ffa : ffa_op O.
Variable xgcd : R -> R -> R * R * R.
Hypothesis BZ : bezout_laws div ffa xgcd.
Variables p q : nat.
Implicit Types (Es : seq 'M[R]_(p,q)) (v : 'M[R]_(p,q)).
Definition lsrepr (ms : seq mat) Es := List.Forall2 (@represents R p q) ms Es.
Lemma ls_lrepr (ms : seq mat) Es : lsrepr ms Es -> lrepr ms (fun i : 'I_(size Es) => Es`_i).
Proof.
  move=> H. split; first by elim: H => //= m E ms' Es' _ _ ->.
  move=> [i Hi]. move: Hi. elim: H i => [|m E ms' Es' H _ IH] [|i] //=; [by exists m|exact: IH].
Qed.
Lemma ls_rem i (ms : seq mat) Es : lsrepr ms Es -> lsrepr (remove_nth i ms) (rem_at i Es).
Proof.
  move=> H. rewrite /remove_nth /rem_at. apply: List.Forall2_app.
  - elim: H i => [|m E ms' Es' H _ IH] [|i] //=; by constructor.
  - elim: H i => [|m E ms' Es' H H' IH] [|i] ; [by constructor|by constructor|by have := H'; case: (Es') => [|? ?]|exact: IH].
Qed.
(* the sum of two lattices given by bases *)
Lemma sum2_ok k k' l l' (B : 'M[R]_(k, p * q)) (B' : 'M[R]_(k', p * q)) : islat (p := p) (q := q) l B -> islat (p := p) (q := q) l' B' ->
  exists s k2 (B2 : 'M[R]_(k2, p * q)), [/\ lat_sum div ffa xgcd p q [:: l; l'] = Some s, islat (p := p) (q := q) s B2 & forall x, rspan B2 x <-> rspan (col_mx B B') x].
Proof.
  move=> H H'. case: (@lat_sum_ok _ _ _ _ BZ p q [:: l; l'] [:: (fun M => rspan B (fl M)); (fun M => rspan B' (fl M))]).
  { do 2!(constructor=> //; first by apply/is_latticeE; do 2!eexists; split; [eassumption|]). }
  move=> s [E /is_latticeE [k2 [B2 [Hs H2]]]]. exists s, k2, B2. split=> // x. rewrite -[x]unflK -H2 rspan_col_mx /=. split.
  - move=> [y [z [Hy [u [w [Hu -> ->]] ->]]]]. exists (fl y), (fl u). by rewrite addr0 flD.
  - move=> [y [z [Hy Hz Ex]]]. exists (unfl y), (unfl z). rewrite unflK. split=> //; last by apply: fl_inj; rewrite flD !unflK -Ex unflK.
    exists (unfl z), 0. by rewrite unflK addr0.
Qed.
Lemma unit_ok (i : 'I_p) (j : 'I_q) : exists m, unit_mat (R := O) p q i j = Some m /\ represents m (delta_mx i j : 'M[R]_(p,q)).
Proof.
  apply: construct_repr => a b. rewrite mxE -!val_eqE /=. congr Some. rewrite (eq_sym (val a)) (eq_sym (val b)).
  have E (m n : nat) : Nat.eqb m n = (m == n) by apply/idP/eqP => [/PeanoNat.Nat.eqb_eq|/PeanoNat.Nat.eqb_eq].
  rewrite !E. by case: (_ && _).
Qed.
Section Lat.
Variables (k : nat) (B : 'M[R]_(k, p * q)).
Definition Inv (s : linlat R * seq mat) (C : nat -> nat -> Prop) := exists Es ke (Be : 'M[R]_(ke, p * q)),
  [/\ lsrepr s.2 Es, islat (p := p) (q := q) s.1 Be, (forall x, rspan Be x <-> rspan (FB B Es) x), sfree B Es &
      forall (i : 'I_p) (j : 'I_q), C i j -> (fr (fl (delta_mx i j : 'M[R]_(p,q))) <= fr Be)%MS].
Lemma islat_rank ke l (Be : 'M[R]_(ke, p * q)) : islat (p := p) (q := q) l Be -> lrank (R := O) l = ke /\ \rank (fr Be) = ke.
Proof.
  move=> [H1 H2 H3 H4]. split; last exact/(rfree_repr BZ). exact: (repr_rows H3).
Qed.
Lemma hyper_step_ok s C (i : 'I_p) (j : 'I_q) : Inv s C -> exists s', hyper_step div ffa xgcd p q i j s = Some s' /\
  Inv s' (fun i' j' => C i' j' \/ (i' = i :> nat /\ j' = j :> nat)).
Proof.
  case: s => el eb [Es [ke [Be [/= He Hl HE HF HC]]]]. rewrite /hyper_step. case: (unit_ok i j) => m [-> Hm]. set v := delta_mx i j in Hm *.
  have Hv0 r : r *: v = 0 -> r = 0 by move=> /matrixP /(_ i j); rewrite !mxE !eqxx mulr1.
  case: (@from_basis_ok _ _ _ _ BZ p q 1 [:: m] (fun=> v)).
  { split=> // i0. rewrite ord1. by exists m. }
  { move=> c. rewrite big_ord_recl big_ord0 addr0 => /Hv0 H i0. by rewrite ord1. }
  cbn [obind]. move=> lv [-> /islat_basis Hlv]. cbn [obind]. case: (sum2_ok Hl Hlv) => nl [k2 [B2 [-> Hnl HB2]]].
  have Efl : flat (fun=> v) = fl v :> 'M[R]_(1, p * q). { apply/matrixP => a b. by rewrite !mxE. } rewrite Efl in HB2.
  cbn [obind]. case: (islat_rank Hl) => -> Rl. case: (islat_rank Hnl) => -> Rn.
  have E2 : (fr B2 :=: fr Be + fr (fl v))%MS.
  { apply/eqmxP. apply/andP. split.
    - apply: submx_trans (rs_le (B := col_mx Be (fl v)) _) _; first by move=> x /HB2. by rewrite map_col_mx addsmxE.
    - apply: submx_trans _ (rs_le (A := col_mx Be (fl v)) _); last by move=> x /HB2. by rewrite map_col_mx addsmxE. }
  have Erk : k2 = \rank (fr Be + fr (fl v)) by rewrite -Rn E2.
  have Hle : (ke <= k2)%N by rewrite -{1}Rl Erk mxrankS // addsmxSl.
  have Hge : (k2 <= ke.+1)%N. { rewrite Erk. apply: leq_trans (mxrank_adds_leqif _ _) _. rewrite Rl -[ke.+1]addn1 leq_add2l. exact: rank_leq_row. }
  have E (m' n : nat) : Nat.eqb m' n = (m' == n) by apply/idP/eqP => [/PeanoNat.Nat.eqb_eq|/PeanoNat.Nat.eqb_eq].
  rewrite !E. have -> : (k2 == ke) || (k2 == (ke + 1)%coq_nat). { change (ke + 1)%coq_nat with (ke + 1)%N. rewrite addn1. by rewrite (eqn_leq k2 ke.+1) Hge /= eq_sym -leq_eqVlt. }
  change (ke + 1)%coq_nat with (ke + 1)%N. rewrite addn1. case: ifP => Hk; eexists; (split; first reflexivity).
  - have Hv : ~~ (fr (fl v) <= fr Be)%MS. { apply/negP => /addsmx_idPl H. move: Erk. rewrite H Rl (eqP Hk) => /eqP. by rewrite eqn_leq ltnn. }
    exists (rcons Es v), k2, B2. split=> //=.
    + rewrite -cats1. apply: List.Forall2_app => //. by constructor.
    + move=> x. rewrite HB2 rspan_col_mx FB_span. split.
      * move=> [y [z [/HE /FB_span [c [d ->]] [e ->] ->]]]. exists c, (fun n => if n == size Es then e 0 0 else d n). rewrite comb_rcons eqxx addrA. congr (_ + _ + _).
        -- apply: comb_ext => n Hn. by rewrite (ltn_eqF Hn).
        -- by rewrite [e]mx11_scalar mul_scalar_mx mxE eqxx mulr1n.
      * move=> [c [d ->]]. rewrite comb_rcons addrA. exists (c *m B + comb Es d), (d (size Es) *: fl v). split=> //; first by apply/HE/FB_span; exists c, d.
        exists (d (size Es))%:M. by rewrite mul_scalar_mx.
    + move=> c d. rewrite comb_rcons addrA => Ec. case: (eqVneq (d (size Es)) 0) => Hd.
      * move: Ec. rewrite Hd scale0r addr0 => /HF [-> H0]. split=> // n. rewrite size_rcons ltnS leq_eqVlt => /orP[/eqP->//|]. exact: H0.
      * case/negP: Hv. apply: (rs_in (r := - d (size Es))); first by rewrite oppr_eq0. apply/HE/FB_span. exists c, d. rewrite scaleNr. apply/eqP. by rewrite eq_sym -addr_eq0 Ec.
    + move=> i' j' [H|[H1 H2]]; first by apply: submx_trans (HC _ _ H) _; rewrite E2 addsmxSl. rewrite (val_inj H1) (val_inj H2) E2. exact: addsmxSr.
  - have Hv : (fr (fl v) <= fr Be)%MS.
    { apply/addsmx_idPl. apply/eqmxP. rewrite addsmxSl andbT. rewrite -(geq_leqif (mxrank_leqif_sup (addsmxSl _ _))) -Erk Rl. by rewrite -ltnS ltn_neqAle Hge Hk. }
    exists Es, ke, Be. split=> //= i' j' [H|[H1 H2]]; first exact: HC. by rewrite (val_inj H1) (val_inj H2).
Qed.

Lemma mapM_F2 (X Y : Type) (f : X -> option Y) (Q : X -> Y -> Prop) xs : (forall x, List.In x xs -> exists y, f x = Some y /\ Q x y) ->
  exists ys, mapM f xs = Some ys /\ List.Forall2 Q xs ys.
Proof.
  elim: xs => [|x xs IH] H /=; first by exists [::].
  have [y [-> Hy]] := H x (or_introl (erefl x)). have [z Hz|ys [E Hys]] := IH; first by apply: H; right.
  cbn [obind]. rewrite E. exists (y :: ys). split=> //. by constructor.
Qed.
Lemma range_iota n : range 0 n = iota 0 n.
Proof. by rewrite /range PeanoNat.Nat.sub_0_r. Qed.
Lemma hyper_ok l : islat (p := p) (q := q) l B -> exists hs Es, [/\ as_hyperplane_intersection div ffa xgcd l = Some hs, size Es = (p * q - k)%N, sfree B Es &
  List.Forall2 (fun i h => exists Bh : 'M[R]_((p * q).-1, p * q), islat (p := p) (q := q) h Bh /\ forall x, rspan Bh x <-> rspan (FB B (rem_at i Es)) x) (iota 0 (size Es)) hs].
Proof.
  move=> Hl. rewrite /as_hyperplane_intersection. have [-> -> _ HB] := Hl.
  have S0 : Inv (l, [::]) (fun _ _ => False).
  { exists [::], k, B. split=> //; first by constructor.
    - move=> x. rewrite FB_span. split=> [[c ->]|[c [d ->]]]; [exists c, (fun=> 0)|exists c]; by rewrite /comb big_ord0 addr0.
    - move=> c d. by rewrite /comb big_ord0 addr0 => /HB. }
  case: (@forM_range _ (fun i s => forM (range 0 q) (fun j s => hyper_step div ffa xgcd p q i j s) s) (fun t s => Inv s (fun i j => (i < t)%N)) 0 p (l, [::])).
  - exact: PeanoNat.Nat.le_0_l.
  - case: S0 => Es [ke [Be [? ? ? ? H]]]. by exists Es, ke, Be.
  - move=> t s [_ /ltP Ht] Hs. case: (@forM_range _ (fun j s => hyper_step div ffa xgcd p q t j s) (fun u s => Inv s (fun i j => (i < t)%N \/ (i = t /\ (j < u)%N))) 0 q s).
    + exact: PeanoNat.Nat.le_0_l.
    + case: Hs => Es [ke [Be [? ? ? ? H]]]. exists Es, ke, Be. split=> // i j [H'|[_ //]]. exact: H.
    + move=> u s' [_ /ltP Hu] Hs'. case: (hyper_step_ok (Ordinal Ht) (Ordinal Hu) Hs') => s2 [-> Hs2]. exists s2. split=> //.
      case: Hs2 => Es [ke [Be [? ? ? ? H]]]. exists Es, ke, Be. split=> // i j H'. apply: H. case: H' => [H'|[H1]]; first by left; left.
      rewrite plusE addn1 ltnS leq_eqVlt => /orP[/eqP H2|H2]; [by right|by left; right].
    + move=> s' [-> Hs']. exists s'. split=> //. case: Hs' => Es [ke [Be [? ? ? ? H]]]. exists Es, ke, Be. split=> // i j. rewrite plusE addn1 ltnS leq_eqVlt => /orP[/eqP H'|H']; apply: H; [by right|by left].
  - move=> [el eb] [-> [Es [ke [Be [/= He Hel HE HF HC]]]]]. cbn [obind]. have [-> Rk] := islat_rank Hel.
    have Eke : ke = (k + size Es)%N.
    { rewrite -Rk. have /(rfree_repr BZ) <- : rfree (FB B Es) by apply/FB_free. rewrite /frac_rank. apply: eqmx_rank. apply/andP. split; apply: rs_le => x /HE //. }
    have Efull : ke = (p * q)%N.
    { rewrite -Rk. apply/eqP. have := sub1mx (fr Be). rewrite /row_full => <-. apply/row_subP => n. rewrite row1.
      have -> : delta_mx 0 n = fr (fl (delta_mx (Ordinal (row_lt n)) (Ordinal (col_lt n)) : 'M[R]_(p,q))); last exact: HC.
      apply/rowP => m. rewrite !mxE eqxx /=. rewrite -!val_eqE /=. have -> : ((m %/ q == n %/ q) && (m %% q == n %% q))%N = (m == n :> nat)%N.
      { apply/andP/eqP => [[/eqP E1 /eqP E2]|-> //]. by rewrite (divn_eq m q) E1 E2 -divn_eq. }
      by case: (_ == _); rewrite ?tofrac1 ?tofrac0. }
    have -> : Nat.eqb ke (p * q)%coq_nat by apply/PeanoNat.Nat.eqb_eq; rewrite Efull.
    have Es_eb : length eb = size Es by case: (ls_lrepr He). rewrite Es_eb range_iota.
    case: (@mapM_F2 _ _ (fun i => do b <- from_basis div ffa xgcd p q (remove_nth i eb); lat_sum div ffa xgcd p q [:: l; b])
       (fun i h => exists Bh : 'M[R]_((p * q).-1, p * q), islat (p := p) (q := q) h Bh /\ forall x, rspan Bh x <-> rspan (FB B (rem_at i Es)) x) (iota 0 (size Es))).
    + move=> i /MatProofs4.in_mem. rewrite mem_iota add0n /= => Hi. have HFi := sfree_rem Hi HF.
      case: (@from_basis_ok _ _ _ _ BZ p q _ _ _ (ls_lrepr (ls_rem i He))).
      { apply/indep_flat => c Hc. have := HFi 0 (fun n => if insub n is Some j then c 0 j else 0). case.
        - rewrite mul0mx add0r -[RHS]Hc mulmx_sum_row. apply: eq_bigr => m _. by rewrite row_flat valK.
        - move=> _ H. apply/rowP => m. rewrite mxE. move: (H m (ltn_ord m)). by rewrite valK. }
      move=> b [-> /islat_basis Hb]. cbn [obind]. case: (sum2_ok Hl Hb) => h [k2 [B2 [-> Hh HB2]]]. exists h. split=> //.
      have Ek2 : k2 = (p * q).-1.
      { have [_ <-] := islat_rank Hh. have /(rfree_repr BZ) E : rfree (FB B (rem_at i Es)) by apply/FB_free.
        transitivity (frac_rank (FB B (rem_at i Es))); last by rewrite E size_rem // -Efull Eke; case: (size Es) Hi => // n _; rewrite addnS.
        rewrite /frac_rank. apply: eqmx_rank. apply/andP. split; apply: rs_le => x /HB2 //. }
      subst k2. by exists B2.
    + move=> hs [-> Hhs]. exists hs, Es. split=> //. by rewrite -Efull Eke addKn.
Qed.
End Lat.
End Bez.
