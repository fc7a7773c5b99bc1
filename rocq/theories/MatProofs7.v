(* determinant, rank, reduced Hermite form, inverse *)
From Coq Require Import NArith.
From mathcomp Require Import all_ssreflect all_algebra all_fingroup.
From Coq Require Import Lia.
From Verif Require Import RingSpec RingModel PermModel MatModel MatSpec MatProofs MatProofs2 MatProofs4 MatProofs5 MatProofs6.
Close Scope rs_scope.
Set Implicit Arguments.
Unset Strict Implicit.
Unset Printing Implicit Defensive.
Import GRing.Theory.
Local Open Scope ring_scope.

Lemma sorted_lt_nth (l : seq nat) i j : sorted ltn l -> (i < j)%N -> (j < size l)%N -> (nth 0 l i < nth 0 l j)%N.
Proof. move=> Hs Hij Hj. apply: (sorted_ltn_nth ltn_trans 0%N Hs) => //; rewrite inE //. exact: ltn_trans Hij Hj. Qed.
Lemma sorted_lt_ge (l : seq nat) i : sorted ltn l -> (i < size l)%N -> (i <= nth 0 l i)%N.
Proof.
  move=> Hs. elim: i => // i IH Hi. apply: leq_ltn_trans (IH (ltnW Hi)) _. exact: sorted_lt_nth.
Qed.

Section Echelon.
Variable R : idomainType.
Variable ffa : ffa_op (mc_ops R).
Lemma echelon_ut n (H : 'M[R]_n) pivs : echelon ffa H pivs -> forall i j : 'I_n, (j < i)%N -> H i j = 0.
Proof.
  move=> [Hs _ _ Hl [_ Hz]] i j Hij. case: (ltnP i (size pivs)) => Hi; last exact: Hz.
  apply: Hl => //. apply: leq_trans Hij _. exact: sorted_lt_ge.
Qed.
Lemma echelon_det n (H : 'M[R]_n) pivs : echelon ffa H pivs -> \det H = \prod_(i < n) H i i.
Proof.
  move=> He. rewrite -det_tr det_trig; last by apply/is_trig_mxP => i j Hij; rewrite mxE (echelon_ut He).
  by apply: eq_bigr => i _; rewrite mxE.
Qed.
Lemma echelon_rank p q (H : 'M[R]_(p,q)) pivs : echelon ffa H pivs -> frac_rank H = size pivs.
Proof.
  move=> [Hs Hk Hq Hl [Hn Hz]]. set k := size pivs in Hk *. rewrite /frac_rank. set F := map_mx _ H.
  apply/eqP. rewrite eqn_leq. apply/andP. split.
  - have -> : F = pid_mx k *m F.
    { apply/matrixP => i j. rewrite [RHS]mxE (bigD1 i) //= big1 ?addr0; last first.
      { move=> i' Hi'. rewrite mxE [_ == _]eq_sym (_ : (nat_of_ord i' == i) = false) ?mul0r //. exact: negbTE. }
      rewrite [pid_mx k i i]mxE eqxx /=. case: ltnP => Hi; rewrite ?mul1r // mul0r. by rewrite mxE (Hz i j Hi) rmorph0. }
    apply: leq_trans (mxrankM_maxl _ _) _. by rewrite rank_pid_mx.
  - have Hf (i : 'I_k) : (i < p)%N := leq_trans (ltn_ord i) Hk.
    have Hg (i : 'I_k) : (nth 0%N pivs i < q)%N by apply: Hq; apply: mem_nth.
    pose f (i : 'I_k) := Ordinal (Hf i). pose g (i : 'I_k) := Ordinal (Hg i).
    have Hrk : \rank (mxsub f g F) = k.
    { apply: mxrank_unit. rewrite unitmxE unitfE -det_tr det_trig; last first.
      { apply/is_trig_mxP => i j Hij. rewrite !mxE Hl ?rmorph0 //=. exact: sorted_lt_nth. }
      apply/prodf_neq0 => i _. rewrite !mxE tofrac_eq0. by have [] := Hn (f i) (g i) (ltn_ord i) erefl. }
    rewrite -{1}Hrk. have -> : mxsub f g F = rowsub f 1%:M *m (F *m colsub g 1%:M).
    { by rewrite mulmx_colsub mulmx1 mulmx_colsub -rowsubE; apply/matrixP => i j; rewrite !mxE. }
    apply: leq_trans (mxrankM_maxr _ _) _. exact: mxrankM_maxl.
Qed.
Lemma frac_rank_unit p q (U : 'M[R]_p) (A : 'M[R]_(p,q)) : U \in unitmx -> frac_rank (U *m A) = frac_rank A.
Proof.
  move=> HU. rewrite /frac_rank map_mxM. apply/eqP. rewrite eqn_leq mxrankM_maxr /=.
  have E : map_mx (@FracField.tofrac R) A = map_mx (@FracField.tofrac R) (invmx U) *m (map_mx (@FracField.tofrac R) U *m map_mx (@FracField.tofrac R) A).
  { by rewrite -!map_mxM mulKmx. }
  rewrite {1}E. exact: mxrankM_maxr.
Qed.
End Echelon.

Section Algo.
Variable R : idomainType.
Notation O := (mc_ops R).
Notation mat := (matrix (T O)).
Variable div : div_op O.
Variable ffa : ffa_op O.
Variable xgcd : R -> R -> R * R * R.
Hypothesis BZ : bezout_laws div ffa xgcd.
Let ID := bz_idom BZ.

Lemma det_hermite_ok n m (A : 'M[R]_n) : represents m A -> det_hermite div ffa xgcd m = Some (\det A).
Proof.
  move=> Hm. rewrite /det_hermite (repr_rows Hm) (repr_cols Hm) eqb_nat eqxx.
  case: (row_hermite_ok BZ Hm) => h [u [ud [pivs [H [U [-> Hh Hu [EH Ed HU] He]]]]]] /=.
  rewrite (@prod_loop R n (fun i => mxf H i i) (fun i => get h i i) 1); last first.
  { move=> i Hi. by rewrite (repr_getE (Ordinal Hi) (Ordinal Hi) Hh) -mxfE. }
  rewrite /obind mul1r. rewrite (_ : \prod_(0 <= i < n) mxf H i i = \det H); last first.
  { rewrite (echelon_det He) big_mkord. apply: eq_bigr => i _. by rewrite mxfE. }
  have Hdu : ud != 0. { apply: contraTneq HU => Z. by rewrite unitmxE -Ed Z unitr0. }
  have E : \det H = \det A * ud by rewrite EH det_mulmx -Ed mulrC.
  case: (div_total ID Hdu E) => q [-> ->]. by [].
Qed.
Lemma det_ok n m (A : 'M[R]_n) : represents m A -> det div ffa xgcd m = Some (Ok (\det A)).
Proof.
  move=> Hm. rewrite /det (repr_rows Hm) (repr_cols Hm) eqb_nat eqxx /=. rewrite (det_naive_repr Hm) (det_hermite_ok Hm) /=.
  by case: n A Hm => [|[|[|[|]]]].
Qed.
Lemma det_err m : rows m <> cols m -> det div ffa xgcd m = Some (Err NotSquare).
Proof. move=> H. rewrite /det eqb_nat. by case: eqP. Qed.
Lemma rank_ok p q m (A : 'M[R]_(p,q)) : represents m A -> rank div ffa xgcd m = Some (frac_rank A).
Proof.
  move=> Hm. rewrite /rank. case: (row_hermite_ok BZ Hm) => h [u [ud [pivs [H [U [-> Hh Hu [EH Ed HU] He]]]]]] /=.
  by rewrite (_ : length pivs = size pivs) // -(echelon_rank He) EH frac_rank_unit.
Qed.
Lemma col_hermite_ok p q m (A : 'M[R]_(p,q)) : represents m A ->
  exists h u ud pivs H U, [/\ col_hermite_algorithm div ffa xgcd m = Some (h, u, ud, pivs), represents h H, represents u U,
     [/\ H = A *m U, ud = \det U & U \in unitmx] & echelon ffa H^T pivs].
Proof.
  move=> Hm. rewrite /col_hermite_algorithm. case: (row_hermite_ok BZ (repr_tr Hm)) => h [u [ud [pivs [H [U [-> Hh Hu [EH Ed HU] He]]]]]] /=.
  exists (transpose h), (transpose u), ud, pivs, H^T, U^T. split=> //; try exact: repr_tr; last by rewrite trmxK.
  split; [by rewrite EH trmx_mul trmxK|by rewrite det_tr|by rewrite unitmx_tr].
Qed.

(* ---- reduction above the pivots *)
Variable norm : R -> option N.
Variable quorem : R -> R -> option (R * R).
Hypothesis EU : euclid_laws O norm quorem.
Lemma quorem_lt' (a b : R) : b != 0 -> exists q r, [/\ quorem a b = Some (q, r), a = q * b + r & norm_lt norm r b].
Proof.
  move=> Hb. case E: (quorem a b) => [[q r]|]; last by have /= := proj1 (quorem_zero _ _ _ EU a b) E; rewrite (negbTE Hb).
  exists q, r. split=> //; first by have /= /eqP := quorem_ok _ _ _ EU _ _ _ _ E.
  rewrite /norm_lt. case Eb: (norm b) => [y|]; last by have /= := proj1 (norm_zero _ _ _ EU b) Eb; rewrite (negbTE Hb).
  case Er: (norm r) => [x|] //. exact: (quorem_lt _ _ _ EU _ _ _ _ _ _ E Eb Er).
Qed.

Section Fixed.
Variables (p q : nat) (A : 'M[R]_(p,q)).
Definition rst (s : mat * mat) (H : 'M[R]_(p,q)) (U : 'M[R]_p) : Prop :=
  [/\ represents s.1 H, represents s.2 U, U \in unitmx & H = U *m A].
Lemma rst_add s H U (i j : 'I_p) (x : R) : rst s H U -> i != j ->
  exists h' u' H' U', [/\ opp_apply div (row_opp (@AddRowMul O (nat_of_ord i) (nat_of_ord j) x)) s.1 = Some h',
    opp_apply div (row_opp (@AddRowMul O (nat_of_ord i) (nat_of_ord j) x)) s.2 = Some u', rst (h', u') H' U' &
    forall r k, H' r k = if r == i then H i k + x * H j k else H r k].
Proof.
  move=> [Hm Hu HU HA] Hij. set o := AddRowMul _ _ _.
  have Ho : op_ok p o. { split=> /=; last exact: unitr1. split; try exact: ltn_ord. by apply/eqP. }
  case: (opp_apply_row ID Hm Ho) => h' [-> Rh]. case: (opp_apply_row ID Hu Ho) => u' [-> Ru].
  exists h', u', (opmx p o *m H), (opmx p o *m U). split=> //.
  - split=> //=; first by rewrite unitmx_mul HU (opmx_unit Ho). by rewrite HA mulmxA.
  - move=> r k. rewrite /o /= !valK E2_mul. rewrite mul1r. case: eqP => // _. case: eqP => // ->. by rewrite mul0r mul1r add0r.
Qed.
Lemma reduce_step_ok s H U (pr r : 'I_p) (pc : 'I_q) : rst s H U -> r != pr -> H pr pc != 0 ->
  exists s' H' U', [/\ reduce_step div quorem pr pc r s = Some s', rst s' H' U', norm_lt norm (H' r pc) (H pr pc) &
    (forall k, H pr k = 0 -> H' r k = H r k) /\ forall i k, i != r -> H' i k = H i k].
Proof.
  case: s => h u S Hr Hnz. have [/= Hh _ _ _] := S. rewrite /reduce_step (repr_getE r pc Hh) (repr_getE pr pc Hh) /=.
  case: (quorem_lt' (H r pc) Hnz) => x [y [E Exy Hlt]]. rewrite /quo E.
  case: (rst_add (- x) S Hr) => h' [u' [H' [U' [E1 E2 S' HH]]]]. exists (h', u'), H', U'. rewrite /obind E1 E2. split=> //.
  - rewrite HH eqxx {1}Exy mulNr addrAC subrr add0r. by [].
  - split=> [k Hk|i k Hi]; rewrite HH ?eqxx ?(negbTE Hi) //. by rewrite Hk mulr0 addr0.
Qed.
Lemma reduce_loop_ok pivs0 : forall pivs pr s H U, rst s H U -> echelon ffa H pivs0 -> pivs0 = take pr pivs0 ++ pivs -> (pr <= size pivs0)%N ->
  (forall (i i' : 'I_p) (j : 'I_q), (i < i' < pr)%N -> j = nth 0%N pivs0 i' :> nat -> norm_lt norm (H i j) (H i' j)) ->
  exists s' H' U', [/\ reduce_loop div quorem pr pivs s = Some s', rst s' H' U', echelon ffa H' pivs0 & reduced_above norm H' pivs0].
Proof.
  elim=> [|pc pivs IH] pr s H U S He Ep Hpr Hred /=.
  - exists s, H, U. split=> //. move=> i i' j /andP [H1 H2]. apply: Hred. rewrite H1 /=.
    rewrite cats0 in Ep. have := f_equal size Ep. rewrite size_take. case: ltnP => Hle Esz; [by move: Hle; rewrite Esz ltnn|exact: leq_trans H2 Hle].
  - have Hlt : (pr < size pivs0)%N.
    { have := f_equal size Ep. rewrite size_cat size_take. case: ltnP => // Hle /=. move/eqP. by rewrite -{1}[size pivs0]addn0 eqn_add2l. }
    have Epc : pc = nth 0%N pivs0 pr. { by rewrite Ep nth_cat size_take Hlt ltnn subnn. }
    have Etl : pivs0 = take pr.+1 pivs0 ++ pivs.
    { rewrite (take_nth 0%N Hlt) -Epc cat_rcons. exact: Ep. }
    have [Hs Hk Hq Hl [Hn Hz]] := He.
    have Hprp : (pr < p)%N := leq_trans Hlt Hk. have Hpcq : (pc < q)%N by rewrite Epc; apply: Hq; apply: mem_nth.
    have [Hpnz _] := Hn (Ordinal Hprp) (Ordinal Hpcq) Hlt Epc.
    have Hpz : forall k : 'I_q, (k < pc)%N -> H (Ordinal Hprp) k = 0 by move=> k Hkk; apply: Hl => //=; rewrite -Epc.
    case: (@forM_range _ (reduce_step div quorem pr pc) (fun r s => exists H' U', [/\ rst s H' U',
        (forall (i : 'I_p) k, (r <= i)%N -> H' i k = H i k), (forall (i : 'I_p) (k : 'I_q), (k < pc)%N -> H' i k = H i k) &
        forall i : 'I_p, (i < r)%N -> norm_lt norm (H' i (Ordinal Hpcq)) (H (Ordinal Hprp) (Ordinal Hpcq))]) 0 pr s).
    + lia.
    + exists H, U. by split.
    + move=> r s1 [_ /ltP Hr] [H1 [U1 [S1 Hge Hlow Hrd]]]. have Hrp : (r < p)%N := ltn_trans Hr Hprp.
      have Hne : Ordinal Hrp != Ordinal Hprp. { apply/eqP => -[E]. by move: Hr; rewrite E ltnn. }
      have Hnz1 : H1 (Ordinal Hprp) (Ordinal Hpcq) != 0 by rewrite Hge //= ltnW.
      case: (reduce_step_ok S1 Hne Hnz1) => s2 [H2 [U2 [E S2 Hlt2 [Hsame1 Hsame2]]]]. exists s2. split; first exact: E.
      exists H2, U2. rewrite PeanoNat.Nat.add_1_r. split=> //.
      * move=> i k Hi. rewrite Hsame2; last by apply: contraTneq Hi => ->; rewrite /= ltnn. apply: Hge. exact: ltnW.
      * move=> i k Hkk. case: (eqVneq i (Ordinal Hrp)) => [->|Hi]; last by rewrite Hsame2 // Hlow.
        rewrite Hsame1 ?Hlow //. exact: Hpz.
      * move=> i. rewrite ltnS leq_eqVlt => /orP [/eqP Ei|Hi].
        { have -> : i = Ordinal Hrp by apply: val_inj. rewrite -(Hge (Ordinal Hprp)) //=. exact: ltnW. }
        rewrite Hsame2; first exact: Hrd. apply: contraTneq Hi => ->. by rewrite /= ltnn.
    + move=> s1 [E1 [H1 [U1 [S1 Hge Hlow Hrd]]]]. rewrite E1 /=.
      have Hlt_pc : forall i : 'I_p, (i < pr)%N -> (nth 0 pivs0 i < pc)%N by move=> i Hi; rewrite Epc; apply: sorted_lt_nth.
      have Hpivsame : forall (i : 'I_p) (j : 'I_q), (i < size pivs0)%N -> j = nth 0%N pivs0 i :> nat -> H1 i j = H i j.
      { move=> i j Hi Ej. case: (ltnP i pr) => Hi'; last exact: Hge. apply: Hlow. rewrite Ej. exact: Hlt_pc. }
      apply: (IH _ _ _ _ S1) => //.
      * split=> //.
        -- move=> i j Hi Hj. case: (ltnP i pr) => Hi'; last by rewrite Hge //; apply: Hl.
           rewrite Hlow; first exact: Hl. exact: ltn_trans Hj (Hlt_pc i Hi').
        -- split=> i j Hi; first by move=> Hj; rewrite !Hpivsame //; apply: Hn.
           rewrite Hge; first exact: Hz. exact: leq_trans (ltnW Hlt) Hi.
      * move=> i i' j /andP [Hii Hi'] Ej. rewrite ltnS leq_eqVlt in Hi'.
        rewrite [H1 i' j]Hpivsame //; last by case/orP: Hi' => [/eqP ->|Hi'] //; exact: ltn_trans Hi' Hlt.
        case/orP: Hi' => [/eqP Ei'|Hi'].
        -- have -> : i' = Ordinal Hprp by apply: val_inj. have -> : j = Ordinal Hpcq by apply: val_inj; rewrite /= Ej Ei' Epc.
           apply: Hrd. by rewrite -Ei'.
        -- rewrite Hlow; first by apply: Hred => //; rewrite Hii. rewrite Ej. exact: Hlt_pc.
Qed.
End Fixed.
Lemma row_reduced_ok p q m (A : 'M[R]_(p,q)) : represents m A ->
  exists h u pivs H U, [/\ row_reduced_hermite_algorithm div ffa xgcd quorem m = Some (h, u, pivs), represents h H, represents u U,
     (H = U *m A /\ U \in unitmx) & (echelon ffa H pivs /\ reduced_above norm H pivs)].
Proof.
  move=> Hm. rewrite /row_reduced_hermite_algorithm. case: (row_hermite_ok BZ Hm) => h [u [ud [pivs [H [U [-> Hh Hu [EH Ed HU] He]]]]]] /=.
  have S : rst A (h, u) H U by split.
  case: (reduce_loop_ok (pr := 0) (pivs := pivs) S He) => //; first by rewrite take0.
  { by move=> i i' j; rewrite ltn0 andbF. }
  move=> [h' u'] [H' [U' [-> [/= Rh Ru HU' EH'] He' Hr']]]. by exists h', u', pivs, H', U'.
Qed.
Lemma col_reduced_ok p q m (A : 'M[R]_(p,q)) : represents m A ->
  exists h u pivs H U, [/\ col_reduced_hermite_algorithm div ffa xgcd quorem m = Some (h, u, pivs), represents h H, represents u U,
     (H = A *m U /\ U \in unitmx) & (echelon ffa H^T pivs /\ reduced_above norm H^T pivs)].
Proof.
  move=> Hm. rewrite /col_reduced_hermite_algorithm. case: (row_reduced_ok (repr_tr Hm)) => h [u [pivs [H [U [-> Hh Hu [EH HU] He]]]]] /=.
  exists (transpose h), (transpose u), pivs, H^T, U^T. split=> //; try exact: repr_tr; last by rewrite trmxK.
  split; [by rewrite EH trmx_mul trmxK|by rewrite unitmx_tr].
Qed.

(* ---- inverse *)
Hypothesis MO : norm_mono O norm.
Lemma norm_lt1 (a : R) : norm_lt norm a 1 -> a = 0.
Proof.
  rewrite /norm_lt. case Ea: (norm a) => [x|]; last by move=> _; have /= /eqP := proj1 (norm_zero _ _ _ EU a) Ea.
  case E1: (norm 1) => [y|] // Hlt. exfalso. have H : @req O a (@rmul O 1 a) = true by rewrite /= mul1r eqxx.
  have := MO H E1 Ea. lia.
Qed.
Lemma prod_unit n (F : 'I_n -> R) i : \prod_j F j \is a GRing.unit -> F i \is a GRing.unit.
Proof. by rewrite (bigD1 i) //= unitrM => /andP []. Qed.
Lemma sorted_full (l : seq nat) n : sorted ltn l -> size l = n -> (forall x, x \in l -> (x < n)%N) -> forall i, (i < n)%N -> nth 0%N l i = i.
Proof.
  move=> Hs Hsz Hin i Hi. apply/eqP. rewrite eqn_leq sorted_lt_ge ?Hsz // andbT.
  have : forall k, (k < n)%N -> (nth 0%N l (n - k.+1)%N <= n - k.+1)%N.
  { elim=> [|k IH] Hk.
    - case: n Hsz Hin Hi Hk => // n Hsz Hin _ _. rewrite subSS subn0 -ltnS. apply: Hin. apply: mem_nth. by rewrite Hsz.
    - have Hlt : (n - k.+2 < n - k.+1)%N by rewrite ltn_sub2l.
      have Hd : (n - k.+1 < size l)%N by rewrite Hsz -[X in (_ < X)%N]subn0 ltn_sub2l //; apply: leq_ltn_trans Hk.
      have := sorted_lt_nth Hs Hlt Hd. move=> H. have := leq_trans H (IH (ltnW Hk)).
      rewrite -(subnSK Hk). by rewrite ltnS. }
  move=> /(_ (n - i.+1)%N). have -> : (n - (n - i.+1).+1)%N = i by rewrite subnSK // subKn // ltnW.
  apply. by rewrite -[X in (_ < X)%N]subn0 ltn_sub2l //; apply: leq_ltn_trans Hi.
Qed.
Lemma mat_inv_ok n m (A : 'M[R]_n) : represents m A ->
  exists o, mat_inv div ffa xgcd quorem m = Some o /\
   match o with Some u => A \in unitmx /\ represents u (invmx A) | None => A \notin unitmx end.
Proof.
  move=> Hm. rewrite /mat_inv (repr_rows Hm) (repr_cols Hm) eqb_nat eqxx.
  case: (row_reduced_ok Hm) => h [u [pivs [H [U [-> Hh Hu [EH HU] [He Hr]]]]]] /=. case: (ident_repr R n) => i [-> Hi] /=.
  rewrite (equal_repr Hh Hi) /=. case: eqP => E.
  - exists (Some u). split=> //. rewrite E in EH.
    have HA : A \in unitmx. { case: (mulmx1_unit (esym EH)). by []. }
    split=> //. have -> : invmx A = U by rewrite -[LHS]mul1mx EH mulmxK. by [].
  - exists None. split=> //. apply/negP => HA. apply: E.
    have HH : H \in unitmx by rewrite EH unitmx_mul HU.
    have Hd : forall i : 'I_n, H i i \is a GRing.unit. { move=> j. apply: (@prod_unit n (fun k => H k k)). rewrite -(echelon_det He). exact: HH. }
    have [Hs Hk Hq Hl [Hn Hz]] := He.
    have Hsz : size pivs = n. { apply/eqP. rewrite eqn_leq Hk /= leqNgt. apply/negP => Hlt. have := Hd (Ordinal Hlt). by rewrite Hz //= unitr0. }
    have Hpi := sorted_full Hs Hsz Hq.
    have H1 : forall j : 'I_n, H j j = 1.
    { move=> j. case: (Hn j j); rewrite ?Hsz ?Hpi // => _ <-. have [v Hv] := unitrPr (Hd j).
      apply/eqP. apply: (ffa_of_unit _ _ (bz_ffa BZ)). exists v. rewrite /=. by apply/eqP. }
    apply/matrixP => a b. rewrite [RHS]mxE. case: (ltngtP a b) => Hab.
    + rewrite (_ : a == b = false); last by apply/eqP => E; move: Hab; rewrite E ltnn.
      apply: norm_lt1. rewrite -(H1 b). apply: (Hr a b b); first by rewrite Hab Hsz ltn_ord. by rewrite Hpi.
    + rewrite (_ : a == b = false); last by apply/eqP => E; move: Hab; rewrite E ltnn. exact: (echelon_ut He).
    + have -> : a = b by apply: val_inj. by rewrite eqxx H1.
Qed.
Lemma mat_inv_err m : rows m <> cols m -> mat_inv div ffa xgcd quorem m = None.
Proof. move=> H. rewrite /mat_inv eqb_nat. by case: eqP. Qed.
End Algo.
