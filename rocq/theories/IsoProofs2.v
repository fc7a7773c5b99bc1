(* The invariant of the Collins-Akritas loop. *)
From Coq Require Import List Arith NArith ZArith Bool Sorted.
From mathcomp Require Import all_ssreflect all_algebra.
From mathcomp Require Import zify.
From Coq Require Import Lia.
From Verif Require Import RingSpec RingModel FactoredModel PermModel MatModel MatSpec ZRing MatInst PolyModel PolyProofs PolyProofs2 BoundProofs2 PolyProps3 FacModel2 IsoModel IsoProofs.
Close Scope rs_scope. Close Scope Q_scope.
Set Implicit Arguments.
Unset Strict Implicit.
Unset Printing Implicit Defensive.
Import Order.TTheory GRing.Theory Num.Theory.
Local Open Scope ring_scope.

Section Ops.
Variable R : rcfType.
Notation zR := (zin R).
Notation PR := (@PR R).
Implicit Types (q l : seq Z).
Lemma PR_nil : PR [::] = 0. Proof. by rewrite /IsoProofs.PR rmorph0. Qed.
Lemma PR0 q : root (PR q) 0 = (Poly q == 0 :> {poly Z_comRingType}) || Z.eqb (@p_evaluate ZO q Z0) Z0.
Proof.
  have E : (PR q).[0] = zR (@p_evaluate ZO q Z0) by rewrite p_evaluateE; exact: (horner_map (zin_rmorph R) (Poly q) Z0).
  rewrite rootE E zin_eq0. case: eqP => //= Z. by rewrite p_evaluateE Z horner0.
Qed.
Lemma PR_eq0 q : (PR q == 0) = (Poly q == 0 :> {poly Z_comRingType}).
Proof.
  apply/eqP/eqP => [E|E]; last by rewrite /IsoProofs.PR E rmorph0. apply/polyP => i. have := congr1 (fun p : {poly R} => p`_i) E. rewrite /IsoProofs.PR coef_map !coef0 => H. exact: zin_inj H.
Qed.
Lemma PR_opx : IsoProofs.PR R one_plus_x = 'X + 1.
Proof. rewrite /one_plus_x !PR_cons. rewrite /IsoProofs.PR rmorph0 mul0r add0r. have -> : zR (Zpos 1) = 1 by []. by rewrite mul1r. Qed.
Lemma PR_comp l m : PR (@p_compose ZO l m) = PR l \Po PR m.
Proof. by rewrite /IsoProofs.PR p_composeE Poly_polyseq map_comp_poly. Qed.
Lemma PR_rev q z : z != 0 -> (PR (rev q)).[z] * z = z ^+ size q * (PR q).[z^-1].
Proof.
  move=> z0. elim: q => [|c q IH]; first by rewrite /IsoProofs.PR rmorph0 !horner0 mul0r mulr0.
  rewrite rev_cons -cats1 PR_cat size_rev !PR_cons PR_nil mul0r add0r.
  rewrite !(hornerE, hornerXn) mulrDl IH exprS mulrDr. rewrite [z * z ^+ _]mulrC -!mulrA. congr (_ + _).
  - by rewrite [z * (_ / z)]mulrCA mulfV // mulr1.
  - by rewrite mulrCA [zR c * _]mulrC mulrA.
Qed.
Lemma mobius_root q y : 0 < y -> root (PR (@p_compose ZO (@p_reversed ZO q) one_plus_x)) y = root (PR q) (y + 1)^-1.
Proof.
  move=> y0. rewrite PR_comp PR_opx !rootE horner_comp !hornerE /p_reversed revE. have z0 : y + 1 != 0 by rewrite gt_eqF // addr_gt0.
  rewrite -(mulIr_eq0 _ (mulIf z0)) PR_rev // mulf_eq0 expf_eq0 (negPf z0) andbF //.
Qed.
Lemma descartes01_0 q t : descartes_01 q = Some 0%N -> 0 < t -> t < 1 -> ~~ root (PR q) t.
Proof.
  move=> H t0 t1. have y0 : 0 < t^-1 - 1 by rewrite subr_gt0 invf_gt1. have := descartes0 H y0. by rewrite mobius_root // subrK invrK.
Qed.
Lemma descartes01_1 q : descartes_01 q = Some 1%N -> exists t, [/\ 0 < t, t < 1, root (PR q) t & forall u, 0 < u -> u < 1 -> root (PR q) u -> u = t].
Proof.
  case/(@descartes1 R) => y [y0 Hy Uy]. have P : 0 < y + 1 by rewrite addr_gt0. exists (y + 1)^-1. split; first by rewrite invr_gt0.
  - by rewrite invf_lt1 // ltr_addr.
  - by rewrite mobius_root in Hy.
  - move=> u u0 u1 Hu. have v0 : 0 < u^-1 - 1 by rewrite subr_gt0 invf_gt1. rewrite -(Uy _ v0) ?subrK ?invrK // mobius_root // subrK invrK //.
Qed.
Lemma PR_small q qs : q_small q = Some qs -> exists n, PR qs = 2%:R ^+ n.+1 *: (PR q \Po (2%:R^-1 *: 'X)).
Proof.
  rewrite /q_small. case E: p_degree => [n|] //= H. exists n. 
  suff G j : forall q qs, mapM (fun ic : nat * Z => if Nat.ltb n (fst ic) then None else Some (Z.shiftl (Z.mul (snd ic) (Zpos 2)) (Z.of_nat (n - fst ic)%coq_nat))) (combine (List.seq j (length q)) q) = Some qs ->
      2%:R ^+ j *: PR qs = 2%:R ^+ n.+1 *: (PR q \Po (2%:R^-1 *: 'X)).
    by have := G 0%N _ _ H; rewrite expr0 scale1r.
  move: j => j {E H q qs} q. elim: q j => [|c q IH] j qs /=.
  - case=> <-. by rewrite PR_nil comp_poly0 !scaler0.
  - case: Nat.ltb_spec => // Hj. case E: mapM => [qs'|] //= [<-]. rewrite !PR_cons scalerDr comp_polyD comp_polyM comp_polyX comp_polyC scalerDr. congr (_ + _).
    + have := IH _ _ E. rewrite exprS => H. have {}H : 2%:R ^+ j *: PR qs' = 2%:R ^+ n *: (PR q \Po (2%:R^-1 *: 'X)).
        apply: (@scalerI _ _ (2%:R : R)); first by rewrite pnatr_eq0. rewrite scalerA H scalerA -exprS //.
      rewrite scalerAl H -scalerAl -scalerAr scalerA exprSr mulfK ?pnatr_eq0 //.
    + rewrite -!mul_polyC -!polyCM. congr (_%:P). rewrite Z.shiftl_mul_pow2; last by lia. rewrite !zin_mul.
      have -> : zR (Z.pow 2 (Z.of_nat (n - j)%coq_nat)) = 2%:R ^+ (n - j)%N.
        rewrite minusE. elim: (n - j)%N => [|m IHm] //. rewrite Nat2Z.inj_succ Z.pow_succ_r; last by lia. by rewrite zin_mul IHm exprS.
      have -> : zR 2 = 2%:R by []. have -> : 2%:R ^+ n.+1 = 2%:R ^+ j * (2%:R * 2%:R ^+ (n - j)%N) :> R by rewrite -exprS -exprD; congr (_ ^+ _); lia.
      by rewrite -!mulrA; congr (_ * _); rewrite [RHS]mulrA [RHS]mulrC.
Qed.
End Ops.
