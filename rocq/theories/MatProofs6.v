(* The row Hermite algorithm *)
From Coq Require Import NArith.
From mathcomp Require Import all_ssreflect all_algebra all_fingroup.
From Coq Require Import Lia.
From Verif Require Import RingSpec RingModel PermModel MatModel MatSpec MatProofs MatProofs2 MatProofs4 MatProofs5.
Close Scope rs_scope.
Set Implicit Arguments.
Unset Strict Implicit.
Unset Printing Implicit Defensive.
Import GRing.Theory.
Local Open Scope ring_scope.

Section Hermite.
Variable R : idomainType.
Notation O := (mc_ops R).
Notation mat := (matrix (T O)).
Variable div : div_op O.
Variable ffa : ffa_op O.
Variable xgcd : R -> R -> R * R * R.
Hypothesis BZ : bezout_laws div ffa xgcd.
Let ID := bz_idom BZ.

(* consequences of the contracts, in Leibniz equality *)
Lemma xgcdP (a b d x y : R) : xgcd a b = (d, x, y) -> (a != 0) || (b != 0) ->
  [/\ d = x * a + y * b, d != 0, snd (ffa d) = d & exists a' b', [/\ div a d = DivOk a', div b d = DivOk b', a = a' * d, b = b' * d & x * a' + y * b' = 1]].
Proof.
  move=> E H. have := bz_xgcd BZ a b. rewrite E => -[[[ca /= /eqP Ha] [[cb /= /eqP Hb] _]] /= /eqP Hd].
  have N := bz_norm BZ a b. rewrite E /= in N.
  have Hd0 : d != 0. { apply/eqP => D0. move: H. by rewrite Ha Hb D0 !mul0r eqxx. }
  split=> //. rewrite mulrC in Ha. rewrite mulrC in Hb.
  case: (div_total ID Hd0 Ha) => a' [Ea ?]; case: (div_total ID Hd0 Hb) => b' [Eb ?]; subst a' b'.
  exists ca, cb. split=> //. apply: (mulIf Hd0). by rewrite mulrDl -!mulrA -Ha -Hb mul1r.
Qed.
Lemma ffaP (a : R) : a = fst (ffa a) * snd (ffa a) /\ (fst (ffa a) : R) \is a GRing.unit.
Proof.
  have L := bz_ffa BZ. split; first by have /= /eqP := ffa_eq _ _ L a.
  case: (ffa_unit _ _ L a) => c /= /eqP H. apply/unitrPr. by exists c.
Qed.
Lemma ffa0 : snd (ffa 0) = 0 :> R.
Proof. case: (ffaP 0) => E U. have H : (ffa 0).1 * (ffa 0).2 == 0 :> R by rewrite -E. rewrite mulf_eq0 in H. case/orP: H => /eqP // H. by move: U; rewrite H unitr0. Qed.
Lemma ffa_norm (a : R) : snd (ffa (snd (ffa a))) = snd (ffa a) :> R.
Proof.
  have L := bz_ffa BZ. have /= H := ffa_assoc _ _ L a (snd (ffa a)). symmetry; apply/eqP; apply: H. exists (fst (ffa a)). split; [exact: ffa_unit L a|].
  exact: ffa_eq L a.
Qed.
Lemma inv_unit (u : R) : u \is a GRing.unit -> exists v, ok_of (inv div u) = Some v /\ v = u^-1.
Proof.
  move=> U. have Hu : u != 0 by apply: contraTneq U => ->; rewrite unitr0.
  have E1 : 1 = u^-1 * u by rewrite mulVr.
  case: (div_total ID Hu E1) => v [E Ev]. exists v. by rewrite /inv /= E.
Qed.

Arguments hermite_pivot : simpl never.
(* ---- the state of the algorithm *)
Section Fixed.
Variables (p q : nat) (A : 'M[R]_(p,q)).
Definition hst (s : mat * mat * T O) (H : 'M[R]_(p,q)) (U : 'M[R]_p) : Prop :=
  [/\ represents s.1.1 H, represents s.1.2 U, s.2 = \det U, U \in unitmx & H = U *m A].

Lemma hst_opp m u ud H U o : hst (m, u, ud) H U -> op_ok p o ->
  exists m' u', [/\ opp_apply div (row_opp o) m = Some m', opp_apply div (row_opp o) u = Some u' &
     hst (m', u', @rmul O ud (opp_det (row_opp o))) (opmx p o *m H) (opmx p o *m U)].
Proof.
  case=> /= Hm Hu Hd HU HA Ho. case: (opp_apply_row ID Hm Ho) => m' [Em Rm]. case: (opp_apply_row ID Hu Ho) => u' [Eu Ru].
  exists m', u'. split=> //. split=> //=.
  - rewrite det_mulmx det_opmx; last exact: (proj1 Ho). by rewrite -Hd mulrC.
  - by rewrite unitmx_mul HU (opmx_unit Ho).
  - by rewrite HA mulmxA.
Qed.

(* one step of the elimination *)
Lemma hermite_step_ok s H U (pr r : 'I_p) (pc : 'I_q) : hst s H U -> pr != r ->
  exists s' H' U', [/\ hermite_step div xgcd pr pc r s = Some s', hst s' H' U',
     (forall i k, i != pr -> i != r -> H' i k = H i k),
     (forall k, H pr k = 0 -> H r k = 0 -> H' pr k = 0 /\ H' r k = 0) &
     [/\ H' r pc = 0, snd (ffa (H' pr pc)) = H' pr pc & (H pr pc != 0) || (H r pc != 0) -> H' pr pc != 0]].
Proof.
  case: s => [[m u] ud] S Hpr. have [/= Hm Hu Hd HU HA] := S. rewrite /hermite_step (repr_getE _ _ Hm) (repr_getE _ _ Hm) /=.
  case: ifP => Hz; last first.
  - exists (m, u, ud), H, U. move/negbT: Hz; rewrite negb_or !negbK => /andP [/eqP Ha /eqP Hb].
    split=> //. split; by rewrite ?Ha ?Hb ?ffa0 ?eqxx.
  - case Ex: (xgcd (H pr pc) (H r pc)) => [[d x] y]. have [Ed Hd0 Nd [a' [b' [Ea Eb Ha Hb Hdet]]]] := xgcdP Ex Hz.
    rewrite -Ed eqxx Eb Ea /=. set o := TwoInv _ _ _ _ _ _.
    have Ho : op_ok p o. { split=> /=. split=> //; try exact: ltn_ord. by apply/eqP; rewrite -[nat_of_ord _ == _]/(pr == r).
 by rewrite /opp_det /= mulrN opprK Hdet unitr1. }
    case: (hst_opp S Ho) => m' [u' [-> -> S']] /=. exists (m', u', @rmul O ud (opp_det (row_opp o))), (opmx p o *m H), (opmx p o *m U).
    have OE : opmx p o = E2 pr r x y (- b') a' by rewrite /o /= !valK.
    have Hrp : (r == pr) = false by rewrite eq_sym (negbTE Hpr).
    split=> //.
    + move=> i k Hi Hr. by rewrite OE E2_mul (negbTE Hi) (negbTE Hr).
    + move=> k H1 H2. rewrite OE !E2_mul Hrp !eqxx H1 H2. by rewrite !mulr0 !addr0.
    + rewrite OE !E2_mul Hrp !eqxx -Ed. split=> //. by rewrite Ha Hb mulNr mulrCA addNr.
Qed.

Lemma hermite_pivot_ok s H U (pr : 'I_p) (pc : 'I_q) : hst s H U ->
  (forall (i : 'I_p) (k : 'I_q), (pr <= i)%N -> (k < pc)%N -> H i k = 0) -> (exists i : 'I_p, (pr <= i)%N /\ H i pc != 0) ->
  exists s' H' U', [/\ hermite_pivot div ffa xgcd pr pc s = Some s', hst s' H' U',
     (forall (i : 'I_p) k, (i < pr)%N -> H' i k = H i k),
     (forall (i : 'I_p) (k : 'I_q), (pr <= i)%N -> (k < pc)%N -> H' i k = 0) &
     [/\ (forall i : 'I_p, (pr < i)%N -> H' i pc = 0), snd (ffa (H' pr pc)) = H' pr pc & H' pr pc != 0]].
Proof.
  case: s => [[m u] ud] S Hz [i0 [Hi0 Hnz]]. have [/= Hm _ _ _ _] := S. rewrite /hermite_pivot (repr_rows Hm) ltb_nat PeanoNat.Nat.add_1_r.
  case: ifP => Hlt.
  - pose P (r : nat) (s : mat * mat * T O) := exists H' U', [/\ hst s H' U', (forall (i : 'I_p) k, (i < pr)%N || (r <= i)%N -> H' i k = H i k),
       (forall (i : 'I_p) (k : 'I_q), (pr <= i)%N -> (k < pc)%N -> H' i k = 0),
       (forall i : 'I_p, (pr < i)%N -> (i < r)%N -> H' i pc = 0) &
       ((r > pr.+1)%N -> snd (ffa (H' pr pc)) = H' pr pc) /\ (H' pr pc != 0 \/ exists i : 'I_p, (r <= i)%N /\ H i pc != 0)].
    case: (@forM_range _ (hermite_step div xgcd pr pc) P pr.+1 p (m, u, ud)).
    + by apply/leP; apply: ltnW.
    + exists H, U. split=> //.
      * move=> i Hi1 Hi2. by move: (leq_trans Hi2 Hi1); rewrite ltnn.
      * rewrite ltnn. split=> //. case: (ltngtP pr i0) Hi0 => // [Hlt' _|/val_inj -> _]; [right; by exists i0|by left].
    + move=> r s [/leP Hr1 /ltP Hr2] [H1 [U1 [S1 Hsame Hz1 Hc1 [Hn1 Hnz1]]]].
      have Hpr : pr != Ordinal Hr2 by apply: contraTneq Hr1 => ->; rewrite /= ltnn.
      case: (hermite_step_ok pc S1 Hpr) => s' [H2 [U2 [E S2 Ho Hk [Hr Hn Hnz2]]]]. exists s'. split; first exact: E.
      exists H2, U2. rewrite PeanoNat.Nat.add_1_r. split=> //.
      * move=> i k Hi. have Hne1 : i != pr. { apply: contraTneq Hi => ->. rewrite ltnn /= -ltnNge. by rewrite ltnS ltnW. }
        have Hne2 : i != Ordinal Hr2. { apply: contraTneq Hi => ->. rewrite /= ltnn orbF -leqNgt. exact: ltnW. }
        rewrite Ho // Hsame //. case/orP: Hi => [->|/ltnW ->] //. by rewrite orbT.
      * move=> i k Hi Hk'. case: (eqVneq i pr) => [->|Hne1]; first by case: (Hk k); rewrite ?Hz1 //= ltnW.
        case: (eqVneq i (Ordinal Hr2)) => [->|Hne2]; first by case: (Hk k); rewrite ?Hz1 //= ltnW.
        by rewrite Ho // Hz1.
      * move=> i Hi Hir. rewrite ltnS in Hir. case: (eqVneq i (Ordinal Hr2)) => [->|Hne2] //.
        have Hne1 : i != pr by apply: contraTneq Hi => ->; rewrite ltnn.
        rewrite Ho // Hc1 // ltn_neqAle Hir andbT. by apply: contraNneq Hne2 => Er; apply/eqP/val_inj.
      * split=> //. case: Hnz1 => [Hx|[i [Hi Hx]]]; first by left; apply: Hnz2; rewrite Hx.
        case: (eqVneq i (Ordinal Hr2)) => [Ei|Hne]; last first.
        { right. exists i. split=> //. rewrite ltn_neqAle Hi andbT. by apply: contraNneq Hne => Er; apply/eqP/val_inj. }
        left. apply: Hnz2. rewrite -Ei [H1 i pc]Hsame ?Hx ?orbT //. by rewrite Hi orbT.
    + move=> s' [E [H' [U' [S' Hsame Hz' Hc' [Hn' Hnz']]]]]. exists s', H', U'. split=> //.
      * move=> i k Hi. by rewrite Hsame // Hi.
      * split=> //; [move=> i Hi; exact: Hc'|exact: Hn'|]. case: Hnz' => // -[i [Hi _]]. by move: (leq_trans (ltn_ord i) Hi); rewrite ltnn.
  - rewrite (repr_getE _ _ Hm) /=. have Hlast : forall i : 'I_p, (pr <= i)%N -> i = pr.
    { move=> i Hi. apply/val_inj/eqP. rewrite eqn_leq Hi andbT. move/negbT: Hlt. rewrite -leqNgt => Hp. by move: (leq_trans (ltn_ord i) Hp). }
    have Epr := Hlast _ Hi0. rewrite Epr in Hnz. case Ef: (ffa (H pr pc)) => [un av].
    have [Ea Uu] := ffaP (H pr pc). rewrite Ef /= in Ea Uu. case: (inv_unit Uu) => iu [-> Eiu] /=.
    set o := UnitMul _ _. have Ho : op_ok p o by split=> //=; rewrite /opp_det /= Eiu unitrV.
    case: (hst_opp S Ho) => m' [u' [-> -> S']] /=. exists (m', u', @rmul O ud (opp_det (row_opp o))), (opmx p o *m H), (opmx p o *m U).
    have OE : opmx p o = E1 pr iu by rewrite /o /= !valK.
    have Ev : H pr pc * iu = av. { rewrite {1}Ea Eiu mulrAC mulrV // mul1r. by []. }
    split=> //.
    + move=> i k Hi. rewrite OE E1_mul. case: eqP => // Ei. by move: Hi; rewrite Ei ltnn.
    + move=> i k Hi Hk. rewrite OE E1_mul Hz // mul0r. by case: eqP.
    + rewrite OE !E1_mul eqxx Ev. split.
      * move=> i Hi. have Ei := Hlast i (ltnW Hi). by move: Hi; rewrite Ei ltnn.
      * have := ffa_norm (H pr pc). by rewrite Ef.
      * by apply: contraNneq Hnz => Z; rewrite Ea Z mulr0.
Qed.

(* searching for the next pivot column *)
Lemma col_nonzero_ok m (H : 'M[R]_(p,q)) pr (pc : 'I_q) : represents m H ->
  @col_nonzero O m pr pc = Some [exists i : 'I_p, (pr <= i)%N && (H i pc != 0)].
Proof.
  move=> Hm. rewrite /col_nonzero (repr_rows Hm) (@allM_spec _ _ (fun r => mxf H r pc == 0)); last first.
  { move=> r /in_rangeP /andP [Hr1 Hr2]. rewrite (repr_getE (Ordinal Hr2) pc Hm) /=. congr Some. by rewrite -(mxfE H (Ordinal Hr2) pc). }
  congr Some. apply/negP/existsP.
  - move=> Hn. apply/existsP. apply: contraT => /existsPn Hz. exfalso. apply: Hn. apply/List.forallb_forall => r /in_rangeP /andP [Hr1 Hr2].
    have := Hz (Ordinal Hr2). rewrite /= Hr1 /= negbK -mxfE. by [].
  - move=> [i /andP [Hi Hnz]] /List.forallb_forall Hall. have := Hall i. rewrite mxfE (negbTE Hnz) => F.
    have := F (@elimT _ _ (in_rangeP pr p i) _). rewrite Hi ltn_ord. by move=> /(_ isT).
Qed.
Lemma next_pivot_ok m (H : 'M[R]_(p,q)) pr : represents m H -> forall fuel pc, (pc <= q)%N -> (q - pc <= fuel)%N ->
  exists o, @next_pivot O fuel m pr pc = Some o /\
   match o with
   | None => forall (i : 'I_p) (k : 'I_q), (pr <= i)%N -> (pc <= k)%N -> H i k = 0
   | Some pc' => [/\ (pc <= pc')%N, (forall (i : 'I_p) (k : 'I_q), (pr <= i)%N -> (pc <= k)%N -> (k < pc')%N -> H i k = 0) &
                   exists Hq : (pc' < q)%N, exists i : 'I_p, (pr <= i)%N /\ H i (Ordinal Hq) != 0]
   end.
Proof.
  move=> Hm. have C := repr_cols Hm. elim=> [|fuel IH] pc Hpc Hf /=; rewrite C eqb_nat.
  - have -> : pc == q by rewrite eqn_leq Hpc /= -subn_eq0 -leqn0. exists None. split=> // i k _ Hk.
    exfalso. move: Hf; rewrite leqn0 subn_eq0 => Hf. move: (ltn_ord k). by rewrite ltnNge (leq_trans Hf Hk).
  - case: eqP => [->|Hne]. { exists None. split=> // i k _ Hk. exfalso. by move: (ltn_ord k); rewrite ltnNge Hk. }
    have Hq : (pc < q)%N by rewrite ltn_neqAle Hpc andbT; apply/eqP.
    rewrite (col_nonzero_ok pr (Ordinal Hq) Hm) /=. case: existsP => [[i /andP [Hi Hnz]]|Hno].
    + exists (Some pc). split=> //. split=> //; last by exists Hq, i. move=> i' k _ H1 H2. by move: (leq_trans H2 H1); rewrite ltnn.
    + have Hz : forall i : 'I_p, (pr <= i)%N -> H i (Ordinal Hq) = 0.
      { move=> i Hi. apply/eqP. apply: contraT => Hnz. exfalso. apply: Hno. exists i. by rewrite Hi. }
      have Hcut : forall k : 'I_q, (pc <= k)%N -> k = Ordinal Hq \/ (pc.+1 <= k)%N.
      { move=> k. rewrite leq_eqVlt => /orP [/eqP E|?]; [left|by right]. exact: val_inj. }
      case: (IH pc.+1 Hq). { by rewrite subnS; case: (q - pc)%N Hf. }
      move=> o [E Ho]. exists o. rewrite PeanoNat.Nat.add_1_r E. split=> //. case: o {E} Ho => [pc'|].
      * move=> [H1 H2 H3]. split=> //; first exact: ltnW. move=> i k Hi Hk Hk'. case: (Hcut k Hk) => [->|?]; auto.
      * move=> H1 i k Hi Hk. case: (Hcut k Hk) => [->|?]; auto.
Qed.

Lemma nth_rcons_lt (l : seq nat) x i : (i < size l)%N -> nth 0%N (rcons l x) i = nth 0%N l i.
Proof. by move=> H; rewrite nth_rcons H. Qed.
Lemma sorted_rcons_lt (l : seq nat) x : sorted ltn l -> (forall y, y \in l -> (y < x)%N) -> sorted ltn (rcons l x).
Proof.
  case: l => [|a l] //= Hp Hx. rewrite rcons_path Hp /=. apply: Hx. exact: mem_last.
Qed.

(* the main loop *)
Lemma hermite_loop_ok : forall fuel pr pc s pivs H U, hst s H U -> (p - pr <= fuel)%N -> (pr <= p)%N -> (pc <= q)%N -> size pivs = pr ->
  sorted ltn pivs -> (forall x, x \in pivs -> (x < q)%N) ->
  (exists pc1, [/\ (pc <= pc1 <= q)%N, forall x, x \in pivs -> (x < pc1)%N & forall (i : 'I_p) (k : 'I_q), (pr <= i)%N -> (k < pc1)%N -> H i k = 0]) ->
  (forall (i : 'I_p) (k : 'I_q), (i < pr)%N -> (k < nth 0%N pivs i)%N -> H i k = 0) ->
  (forall (i : 'I_p) (k : 'I_q), (i < pr)%N -> k = nth 0%N pivs i :> nat -> H i k != 0 /\ snd (ffa (H i k)) = H i k) ->
  exists s' pivs' H' U', [/\ hermite_loop div ffa xgcd fuel pr pc s pivs = Some (s', pivs'), hst s' H' U' & echelon ffa H' pivs'].
Proof.
  elim=> [|fuel IH] pr pc s pivs H U S Hf Hp Hpc Hsz Hsort Hin Hz Hl Hpiv.
  - have E : pr = p by apply/eqP; rewrite eqn_leq Hp -subn_eq0 -leqn0. case: s S => [[m u] ud] S. have [/= Hm _ _ _ _] := S.
    rewrite /= (repr_rows Hm) E ltb_nat ltnn. exists (m, u, ud), pivs, H, U. split=> //. rewrite /echelon Hsz E. split=> //.
    + move=> i j _. apply: Hl. by rewrite E.
    + split. { move=> i j _. apply: Hpiv. by rewrite E. } move=> i j Hi. by move: (leq_trans (ltn_ord i) Hi); rewrite ltnn.
  - case: s S => [[m u] ud] S. have [/= Hm _ _ _ _] := S. rewrite /= (repr_rows Hm) (repr_cols Hm) ltb_nat. case: ifP => Hlt; last first.
    + have E : pr = p by apply/eqP; rewrite eqn_leq Hp leqNgt Hlt. exists (m, u, ud), pivs, H, U. split=> //. rewrite /echelon Hsz E. split=> //.
      * move=> i j _. apply: Hl. by rewrite E.
      * split. { move=> i j _. apply: Hpiv. by rewrite E. } move=> i j Hi. by move: (leq_trans (ltn_ord i) Hi); rewrite ltnn.
    + case: (next_pivot_ok pr Hm Hpc (leqnn _)) => -[pc'|] [-> Ho] /=; last first.
      * exists (m, u, ud), pivs, H, U. split=> //. rewrite /echelon Hsz. split=> //. split=> // i j Hi.
        case: Hz => pc1 [/andP [Hpc1 Hpc1q] _ Hz]. case: (ltnP j pc1) => Hj; first exact: Hz.
        apply: Ho => //. exact: leq_trans Hpc1 Hj.
      * have [Hge Hbetw [Hq [i0 [Hi0 Hnz]]]] := Ho. case: Hz => pc1 [/andP [Hpc1 Hpc1q] Hpl Hz].
        have Hge1 : (pc1 <= pc')%N. { rewrite leqNgt. apply: contra Hnz => Hk. by rewrite Hz. }
        have Hz' : forall (i : 'I_p) (k : 'I_q), (Ordinal Hlt <= i)%N -> (k < Ordinal Hq)%N -> H i k = 0.
        { move=> i k /= Hi Hk. case: (ltnP k pc1) => Hj; first exact: Hz. apply: Hbetw => //. exact: leq_trans Hpc1 Hj. }
        case: (hermite_pivot_ok S Hz'); first by exists i0.
        move=> s' [H' [U' [/= -> S' Hsame Hz2 [Hbelow Hn Hnz2]]]] /=.
        case: s' S' => [[m' u'] ud'] S'. have [/= Hm' _ _ _ _] := S'.
        rewrite (@allM_spec _ _ (fun _ => true)); last first.
        { move=> r /in_rangeP /andP [Hr1 Hr2]. rewrite (repr_getE (Ordinal Hr2) (Ordinal Hq) Hm') /=. congr Some. rewrite Hbelow ?eqxx //=. by move: Hr1; rewrite PeanoNat.Nat.add_1_r. }
        rewrite (_ : List.forallb _ _ = true) /=; last by apply/List.forallb_forall.
        rewrite PeanoNat.Nat.add_1_r. have -> : List.app pivs [:: pc'] = rcons pivs pc' by rewrite -cats1.
        apply: (IH _ _ _ _ _ _ S') => //.
        -- by rewrite subnS; case: (p - pr)%N Hf.
        -- exact: ltnW.
        -- by rewrite size_rcons Hsz.
        -- apply: sorted_rcons_lt => // y Hy. exact: leq_trans (Hpl y Hy) Hge1.
        -- move=> x. rewrite mem_rcons inE => /orP [/eqP -> //|]. exact: Hin.
        -- exists pc'.+1. split=> //; first by rewrite leqnSn Hq.
           ++ move=> x. rewrite mem_rcons inE => /orP [/eqP -> //|Hx]. rewrite ltnS ltnW //. exact: leq_trans (Hpl x Hx) Hge1.
           ++ move=> i k Hi Hk. rewrite ltnS leq_eqVlt in Hk. case/orP: Hk => [/eqP Ek|Hk]; last by apply: Hz2 => //=; exact: ltnW.
              have -> : k = Ordinal Hq by apply: val_inj. exact: Hbelow.
        -- move=> i k. rewrite ltnS leq_eqVlt => /orP [/eqP Ei|Hi].
           ++ rewrite Ei -Hsz nth_rcons ltnn eqxx => Hk. apply: Hz2 => //=. by rewrite Ei.
           ++ rewrite nth_rcons_lt ?Hsz // => Hk. rewrite Hsame //. exact: Hl.
        -- move=> i k. rewrite ltnS leq_eqVlt => /orP [/eqP Ei|Hi].
           ++ rewrite Ei -Hsz nth_rcons ltnn eqxx => Hk. have -> : k = Ordinal Hq by apply: val_inj. have -> : i = Ordinal Hlt by apply: val_inj. by [].
           ++ rewrite nth_rcons_lt ?Hsz // => Hk. rewrite !Hsame //. exact: Hpiv.
Qed.
End Fixed.

(* the whole algorithm *)
Lemma row_hermite_ok p q m (A : 'M[R]_(p,q)) : represents m A ->
  exists h u ud pivs H U, [/\ row_hermite_algorithm div ffa xgcd m = Some (h, u, ud, pivs), represents h H, represents u U,
     [/\ H = U *m A, ud = \det U & U \in unitmx] & echelon ffa H pivs].
Proof.
  move=> Hm. rewrite /row_hermite_algorithm (repr_rows Hm). case: (ident_repr R p) => u0 [-> Hu0] /=.
  have S : hst A (m, u0, 1) A 1%:M by split=> //=; rewrite ?det1 ?unitmx1 ?mul1mx.
  case: (@hermite_loop_ok _ _ A p 0%N 0%N (m, u0, 1) nil A 1%:M S) => //; first by rewrite subn0.
  { exists 0%N. by split. }
  move=> [[h u] ud] [pivs [H [U [-> [/= Hh Hu Hd HU HA] He]]]] /=. rewrite (repr_rows Hh).
  case: ifP => _; last by exists h, u, ud, pivs, H, U.
  rewrite (det_naive_repr Hu) /= -Hd eqxx. by exists h, u, ud, pivs, H, U.
Qed.
End Hermite.
