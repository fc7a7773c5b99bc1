(* The Collins-Akritas loop: what is returned isolates the roots the stack covers. *)
From Coq Require Import List Arith NArith ZArith Bool Sorted.
From mathcomp Require Import all_ssreflect all_algebra.
From mathcomp Require Import zify.
From Coq Require Import Lia.
From Verif Require Import RingSpec RingModel FactoredModel PermModel MatModel MatSpec ZRing MatInst PolyModel PolyProofs PolyProofs2 BoundProofs2 PolyProps3 FacModel2 IsoModel IsoProofs IsoProofs2.
Close Scope rs_scope. Close Scope Q_scope.
Set Implicit Arguments.
Unset Strict Implicit.
Unset Printing Implicit Defensive.
Import Order.TTheory GRing.Theory Num.Theory.
Local Open Scope ring_scope.
Arguments drop_left_root : simpl never. Arguments descartes_01 : simpl never. Arguments q_small : simpl never.

Section Loop.
Variable R : rcfType.
Notation zR := (zin R).
Notation PR := (@PR R).
Variable P : {poly R}.
(* no multiple root *)
Definition simple (p : {poly R}) := forall x, root p x -> ~~ root p^`() x.
Definition at_ (c : N) (k : nat) (t : R) : R := ((N.to_nat c)%:R + t) / 2%:R ^+ k.
(* the points of a piece *)
Definition inp (e : piece) (x : R) : Prop := let: (c, k, h) := e in if h then at_ c k 0 < x /\ x < at_ c k 1 else x = at_ c k 0.
Definition Inv (i : item) : Prop := let: (c, k, q) := i in
  [/\ PR q != 0, simple (PR q), forall t, 0 < t -> t < 1 -> root (PR q) t = root P (at_ c k t) & root (PR q) 0 -> root P (at_ c k 0)].
(* the points an item accounts for *)
Definition cov (i : item) (x : R) : Prop := let: (c, k, q) := i in (at_ c k 0 < x /\ x < at_ c k 1) \/ (x = at_ c k 0 /\ root (PR q) 0).
Definition before (A B : R -> Prop) := forall x y, A x -> B y -> x < y.
Definition isolates (S : R -> Prop) (out : list piece) : Prop :=
  [/\ forall e, In e out -> exists x, [/\ root P x, inp e x & forall y, inp e y -> root P y -> y = x],
      forall x, root P x -> S x -> exists e, In e out /\ inp e x,
      forall e x, In e out -> inp e x -> S x &
      StronglySorted (fun e e' => before (inp e) (inp e')) out].
Definition covs (st : list item) (x : R) : Prop := exists i, In i st /\ cov i x.

Lemma two_k k : 0 < (2%:R ^+ k : R). Proof. by rewrite exprn_gt0 // ltr0n. Qed.
Lemma at_lt c k t u : (at_ c k t < at_ c k u) = (t < u).
Proof. by rewrite /at_ ltr_pmul2r ?invr_gt0 ?two_k // ltr_add2l. Qed.
Lemma at_left c k t : at_ (N.shiftl c 1) (k + 1)%coq_nat t = at_ c k (t / 2%:R).
Proof.
  rewrite /at_ plusE addn1 exprSr invfM mulrA. have -> : N.to_nat (N.shiftl c 1) = (N.to_nat c * 2)%N by rewrite N.shiftl_mul_pow2; lia.
  rewrite mulrAC. congr (_ / _). rewrite natrM mulrDl mulfK // pnatr_eq0 //.
Qed.
Lemma at_right c k t : at_ (N.add (N.shiftl c 1) 1) (k + 1)%coq_nat t = at_ c k ((t + 1) / 2%:R).
Proof.
  rewrite -at_left /at_. congr (_ / _). rewrite [t + 1]addrC addrA. congr (_ + _). by rewrite -[1]/(1%:R) -natrD; congr (_%:R); lia.
Qed.
(* every point strictly inside is at_ c k t *)
Lemma at_surj c k x : at_ c k 0 < x -> x < at_ c k 1 -> exists t, [/\ 0 < t, t < 1 & x = at_ c k t].
Proof.
  move=> H0 H1. set t := x * 2%:R ^+ k - (N.to_nat c)%:R. have E : x = at_ c k t by rewrite /at_ /t addrC subrK mulfK // gt_eqF // two_k.
  exists t. split=> //; by rewrite -(at_lt c k) -E.
Qed.

(* l.616-621 *)
Lemma drop_ok c k q q' e0 : Inv (c, k, q) -> drop_left_root c k q = Some (q', e0) ->
  [/\ Inv (c, k, q'), ~~ root (PR q') 0 & (root (PR q) 0 = false /\ e0 = [::]) \/ (root (PR q) 0 /\ e0 = [:: (c, k, false)])].
Proof.
  case=> Q0 QS QI QZ. rewrite /drop_left_root. have := PR0 R q. rewrite -(PR_eq0 R) (negPf Q0) /=. case: Z.eqb => E.
  - have := p_div_ok Zidom q (@p_var ZO). case: p_div => [[d| |]|] //= [V Eq] [<- <-].
    have PXv : PR (@p_var ZO) = 'X.
      rewrite /p_var !PR_cons PR_nil mul0r add0r. have -> : zR (@r1 ZO) = 1 by []. have -> : zR (@r0 ZO) = 0 by []. by rewrite addr0 mul1r.
    have EX : PR q = PR d * 'X.
      rewrite /IsoProofs.PR Eq rmorphM /=. congr (_ * _). exact: PXv.
    have D0 : PR d != 0 by apply: contraNneq Q0 => Z; rewrite EX Z mul0r.
    have R0 : ~~ root (PR d) 0.
      have := QS 0. rewrite E EX derivM derivX mulr1 !rootE !hornerE => /(_ isT). by rewrite ?mulr0 ?add0r.
    split=> //; last by right.
    split=> //; last by rewrite (negPf R0).
    + move=> x Hx. have := QS x. rewrite EX derivM derivX mulr1 !rootE !hornerE (eqP Hx) mul0r eqxx => /(_ isT). by rewrite addr0 mulf_eq0 negb_or => /andP[].
    + move=> t t0 t1. rewrite -QI // EX rootM rootX (gt_eqF t0) orbF //.
  - case=> <- <-. rewrite E. split=> //. by left.
Qed.

Lemma inv_left c k q qs : Inv (c, k, q) -> ~~ root (PR q) 0 -> q_small q = Some qs -> Inv (N.shiftl c 1, (k + 1)%coq_nat, qs) /\ ~~ root (PR qs) 0.
Proof.
  case=> Q0 QS QI QZ R0 /(PR_small R) [n E]. have L : 2%:R ^+ n.+1 != 0 :> R by rewrite gt_eqF // two_k.
  have RT t : root (PR qs) t = root (PR q) (t / 2%:R) by rewrite E rootZ // !rootE horner_comp !hornerE mulrC.
  have R0' : ~~ root (PR qs) 0 by rewrite RT mul0r.
  split=> //. split.
  - apply: contraNneq R0' => ->. exact: root0.
  - move=> x. rewrite RT => Hx. rewrite E derivZ rootZ // deriv_comp rootM derivZ derivX negb_or. apply/andP; split.
    + rewrite rootE horner_comp !hornerE mulrC. exact: QS.
    + by rewrite rootE !hornerE ?mulr1 invr_eq0 pnatr_eq0.
  - move=> t t0 t1. rewrite RT at_left. apply: QI; first by rewrite divr_gt0 // ltr0n. rewrite ltr_pdivr_mulr ?ltr0n // mul1r. apply: lt_trans t1 _. by rewrite ltr1n.
  - by rewrite (negPf R0').
Qed.
Lemma inv_right c k q qs : Inv (c, k, q) -> ~~ root (PR q) 0 -> q_small q = Some qs -> Inv (N.add (N.shiftl c 1) 1, (k + 1)%coq_nat, @p_compose ZO qs one_plus_x) /\ 
  (root (PR (@p_compose ZO qs one_plus_x)) 0 = root P (at_ (N.add (N.shiftl c 1) 1) (k + 1)%coq_nat 0)).
Proof.
  case=> Q0 QS QI QZ R0 H. have [[S0 SS SI SZ] SR] := inv_left (And4 Q0 QS QI QZ) R0 H. have [n E] := PR_small R H. have L : 2%:R ^+ n.+1 != 0 :> R by rewrite gt_eqF // two_k.
  have RS t : root (PR qs) t = root (PR q) (t / 2%:R) by rewrite E rootZ // !rootE horner_comp !hornerE mulrC.
  have RT t : root (PR (@p_compose ZO qs one_plus_x)) t = root (PR qs) (t + 1) by rewrite PR_comp PR_opx !rootE horner_comp !hornerE.
  have H2 : (0 < 2%:R :> R) by rewrite ltr0n.
  have I t : 0 <= t -> t < 1 -> root (PR (@p_compose ZO qs one_plus_x)) t = root P (at_ (N.add (N.shiftl c 1) 1) (k + 1)%coq_nat t).
    move=> t0 t1. rewrite RT RS at_right. apply: QI; first by apply: divr_gt0 => //; exact: ltr_paddl t0 ltr01. rewrite ltr_pdivr_mulr // mul1r. by rewrite (_ : 2%:R = 1 + 1) ?ltr_add2r // mulr2n.
  split; last by apply: I; rewrite ?ltr01.
  split.
  - apply: contraNneq SR => Z. have := RT (-1). by rewrite Z root0 addNr => <-.
  - move=> x. rewrite RT => Hx. rewrite PR_comp PR_opx deriv_comp rootM derivD derivX -[1]/(1%:P) derivC addr0 negb_or. apply/andP; split.
    + rewrite rootE horner_comp !hornerE. exact: SS.
    + by rewrite rootE hornerE oner_eq0.
  - move=> t t0 t1. apply: I => //. exact: ltW.
  - by rewrite I ?ltr01.
Qed.

Lemma half01 : (0 < 2%:R^-1 :> R) /\ (2%:R^-1 < 1 :> R).
Proof. by rewrite invr_gt0 invf_lt1 ?ltr0n ?ltr1n. Qed.
(* the points of an item once the root at its left end has been dropped *)
Lemma cov_open c k q x : ~~ root (PR q) 0 -> cov (c, k, q) x <-> at_ c k 0 < x /\ x < at_ c k 1.
Proof. move=> R0. split; [by case=> // -[_]; rewrite (negPf R0)|by left]. Qed.
Lemma cov_left c k qs x : ~~ root (PR qs) 0 -> cov (N.shiftl c 1, (k + 1)%coq_nat, qs) x -> at_ c k 0 < x /\ x < at_ c k 2%:R^-1.
Proof. move=> R0 /(cov_open _ _ _ R0). by rewrite !at_left mul0r div1r. Qed.
Lemma cov_right c k q x : cov (N.add (N.shiftl c 1) 1, (k + 1)%coq_nat, q) x -> at_ c k 2%:R^-1 <= x /\ x < at_ c k 1.
Proof.
  rewrite /cov !at_right add0r div1r. have -> : (1 + 1) / 2%:R = 1 :> R by rewrite -[1 + 1]/(2%:R) divff // pnatr_eq0.
  case=> [[H1 H2]|[-> _]]; split=> //; first exact: ltW. rewrite at_lt. by case: half01.
Qed.
Lemma iso_cons S e new : (exists x, [/\ root P x, inp e x & forall y, inp e y -> root P y -> y = x]) -> isolates S new -> before (inp e) S ->
  isolates (fun x => inp e x \/ S x) (e :: new).
Proof.
  move=> He [G1 G2 G3 G4] B. split.
  - move=> e' /= [<-|H] //. exact: G1.
  - move=> x Hx [H|H]; first by exists e; split=> //; left. have [e' [H1 H2]] := G2 x Hx H. exists e'. split=> //. by right.
  - move=> e' x /= [<-|H] Hx; [by left|right; exact: G3 H Hx].
  - apply: SSorted_cons => //. apply/Forall_forall => e' He' x y Hx Hy. apply: B => //. exact: (G3 e' y).
Qed.
Lemma iso_ext (S S' : R -> Prop) new : isolates S new -> (forall x, S x -> S' x) -> (forall x, root P x -> S' x -> S x) -> isolates S' new.
Proof.
  case=> G1 G2 G3 G4 H1 H2. split=> // [x Hx Sx|e x He Hx]; first by apply: G2 => //; exact: H2. apply: H1; exact: (G3 e x).
Qed.
Notation chain := (StronglySorted (fun i j => before (cov i) (cov j))).
Lemma chain_covs i st x y : chain (i :: st) -> cov i x -> covs st y -> x < y.
Proof. move=> HC Hx [j [Hj Hy]]. have [_ F] := StronglySorted_inv HC. exact: (proj1 (Forall_forall _ _) F j Hj x y). Qed.

Theorem loop_ok fuel st isol out : (forall i, In i st -> Inv i) -> chain st -> iso_loop fuel st isol = Some out ->
  exists new, out = isol ++ new /\ isolates (covs st) new.
Proof.
  elim: fuel st isol => [|fuel IH] [|[[c k] q] st] isol HI HC //=.
  - case=> <-. exists [::]. rewrite cats0. split=> //. split=> // [x _ [i []]//|]. exact: SSorted_nil.
  - case=> <-. exists [::]. rewrite cats0. split=> //. split=> // [x _ [i []]//|]. exact: SSorted_nil.
  - case ED: drop_left_root => [[q' e0]|] //=. have [IV R0 D] := drop_ok (HI _ (or_introl erefl)) ED.
    have HI' i : In i st -> Inv i by move=> H; apply: HI; right. have [HC' _] := StronglySorted_inv HC.
    have C1 x : cov (c, k, q') x -> cov (c, k, q) x by rewrite (cov_open _ _ _ R0) => H; left.
    suff fin new : isolates (fun x => cov (c, k, q') x \/ covs st x) new -> isolates (covs ((c, k, q) :: st)) (e0 ++ new).
      have G0 : (exists new, out = (isol ++ e0) ++ new /\ isolates (fun x => cov (c, k, q') x \/ covs st x) new) -> exists new, out = isol ++ new /\ isolates (covs ((c, k, q) :: st)) new.
        by case=> new [-> /fin H]; exists (e0 ++ new); rewrite catA.
      case EV: descartes_01 => [v|] //=. case: Nat.eqb_spec => V1; last case: Nat.ltb_spec => V2.
      + move=> HL. apply: G0. have [new [-> Hn]] := IH _ _ HI' HC' HL. exists ((c, k, true) :: new). split; first by rewrite -!catA.
        apply: (@iso_ext (fun x => inp (c, k, true) x \/ covs st x)).
        * apply: iso_cons => //.
          -- rewrite V1 in EV. have [t [t0 t1 Ht Ut]] := descartes01_1 R EV. case: (IV) => Q0 QS QI QZ. exists (at_ c k t). split; first by rewrite -QI.
             ++ by rewrite /inp !at_lt.
             ++ move=> y [y0 y1] Hy. have [u [u0 u1 E]] := at_surj y0 y1. rewrite E. congr (at_ _ _ _). apply: Ut => //. by rewrite QI // -E.
          -- move=> x y Hx Hy. apply: (chain_covs HC) Hy. apply: C1. by left.
        * move=> x [H|H]; [left; by left|by right].
        * move=> x _ [/(cov_open _ _ _ R0) H|H]; [by left|by right].
      + case ES: q_small => [qs|] //= HL. apply: G0. have [IL RL] := inv_left IV R0 ES. have [IR RR] := inv_right IV R0 ES.
        set il : item := (N.shiftl c 1, (k + 1)%coq_nat, qs) in HL. set ir : item := (N.add (N.shiftl c 1) 1, (k + 1)%coq_nat, @p_compose ZO qs one_plus_x) in HL.
        have CL x : cov il x -> cov (c, k, q') x /\ x < at_ c k 2%:R^-1.
          move=> Hx; have [H1 H2] := cov_left RL Hx. split=> //. apply/(cov_open _ _ _ R0). split=> //. apply: lt_trans H2 _. rewrite at_lt. by case: half01.
        have CR x : cov ir x -> cov (c, k, q') x /\ at_ c k 2%:R^-1 <= x.
          move=> Hx; have [H1 H2] := cov_right Hx. split=> //. apply/(cov_open _ _ _ R0). split=> //. apply: lt_le_trans H1. rewrite at_lt. by case: half01.
        have [new [-> Hn]] : exists new, out = (isol ++ e0) ++ new /\ isolates (covs (il :: ir :: st)) new.
          apply: IH HL.
          -- move=> i [<-|[<-|H]] //. exact: HI'.
          -- apply: SSorted_cons; first (apply: SSorted_cons => //).
             ++ apply/Forall_forall => j Hj x y /CR [/C1 Hx _] Hy. apply: (chain_covs HC Hx). by exists j.
             ++ apply/Forall_forall => j /= [<-|Hj] x y.
                ** move=> /CL [_ H1] /CR [_ H2]. exact: lt_le_trans H1 H2.
                ** move=> /CL [/C1 Hx _] Hy. apply: (chain_covs HC Hx). by exists j.
        exists new. split=> //. apply: (iso_ext Hn).
        * move=> x [i [/= [<-|[<-|Hi]] Hx]]; [left; by case: (CL x Hx)|left; by case: (CR x Hx)|right; by exists i].
        * move=> x Hx [/(cov_open _ _ _ R0) [H0 H1]|[i [Hi Hc]]]; last by exists i; split=> //; right; right.
          have E1 : at_ c k 1 = at_ (N.add (N.shiftl c 1) 1) (k + 1)%coq_nat 1 by rewrite at_right; congr (at_ _ _ _); rewrite -[1 + 1]/(2%:R) divff // pnatr_eq0.
          have E2 : at_ c k 2%:R^-1 = at_ (N.add (N.shiftl c 1) 1) (k + 1)%coq_nat 0 by rewrite at_right add0r div1r.
          have E3 : at_ c k 2%:R^-1 = at_ (N.shiftl c 1) (k + 1)%coq_nat 1 by rewrite at_left div1r.
          have E4 : at_ c k 0 = at_ (N.shiftl c 1) (k + 1)%coq_nat 0 by rewrite at_left mul0r.
          case: (ltgtP x (at_ c k 2%:R^-1)) => L.
          -- exists il. split; first by left. left. by rewrite -E3 -E4.
          -- exists ir. split; first by right; left. left. by rewrite -E1 -E2.
          -- exists ir. split; first by right; left. right. by rewrite RR -E2 -L.
      + have {V1 V2} V : v = 0%N by lia. rewrite V in EV. move=> HL. apply: G0. have [new [-> Hn]] := IH _ _ HI' HC' HL. exists new. split=> //. apply: (iso_ext Hn); first by right.
        move=> x Hx [/(cov_open _ _ _ R0) [H0 H1]|//]. have [t [t0 t1 E]] := at_surj H0 H1. case: IV => _ _ QI _. have := descartes01_0 EV t0 t1. by rewrite QI // -E Hx.
    case: D => [[D ->]|[D ->]] Hn.
    + apply: (iso_ext Hn).
      * move=> x [/C1 H|[i [Hi H]]]; [by exists (c, k, q); split=> //; left|by exists i; split=> //; right].
      * move=> x Hx [i [[<-|Hi] H]]; last by right; exists i. left. apply/(cov_open _ _ _ R0). by case: H => // -[_]; rewrite D.
    + rewrite cat1s. case: (HI _ (or_introl erefl)) => Q0 QS QI QZ. apply: (@iso_ext (fun x => inp (c, k, false) x \/ (cov (c, k, q') x \/ covs st x))).
      * apply: iso_cons => //; first by exists (at_ c k 0); split=> //; exact: QZ.
        move=> x y -> [/(cov_open _ _ _ R0) [H0 _]|Hy] //. apply: (chain_covs HC) Hy. by right.
      * move=> x [H|[/C1 H|[i [Hi H]]]]; [exists (c, k, q); split; [by left|by right]|by exists (c, k, q); split=> //; left|by exists i; split=> //; right].
      * move=> x Hx [i [[<-|Hi] H]]; last by right; right; exists i. case: H => [H|[-> _]]; [right; left; exact/(cov_open _ _ _ R0)|by left].
Qed.
End Loop.
