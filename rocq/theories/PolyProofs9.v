(* The subresultant sequence, the resultant and the gcd it computes. *)
From Coq Require Import List Arith NArith Bool.
From mathcomp Require Import all_ssreflect all_algebra.
From mathcomp Require Import zify.
From Coq Require Import Lia.
From Verif Require Import RingSpec RingModel RingProofs PermModel MatModel MatSpec MatProofs MatProofs2 PolyModel PolyProofs PolyProofs2 PolyProofs3 PolySpec PolyProofs6 PolyProofs7 PolyProofs8.
Close Scope rs_scope.
Set Implicit Arguments.
Unset Strict Implicit.
Unset Printing Implicit Defensive.
Import GRing.Theory.
Local Open Scope ring_scope.

Section D.
Variable R : idomainType.
Notation O := (mc_ops R).
Variable div : div_op O.
Hypothesis D : idom_laws O div.
Implicit Types (a b : seq R) (A B Q C : {poly R}).

Lemma sres_Res m n A B : size A = m.+1 -> size B = n.+1 -> (sres m n 0 A B)`_0 = Res A B.
Proof.
  move=> sA sB. rewrite /sres /Res /pdeg sA sB /= !subn0 /dp.
  have -> : forall p : {poly R}, p`_0 = coefp 0 p by []. rewrite -det_map_mx. congr (\det _). apply/matrixP => i c. rewrite !mxE /ent /=.
  have -> : (if c.+1 == (m + n)%N then (sh n A ++ sh m B)`_i else (((sh n A ++ sh m B)`_i)`_(m + n + 0 - c.+1))%:P)`_0 = ((sh n A ++ sh m B)`_i)`_(m + n - c.+1).
  { case: eqP => [->|_]; first by rewrite subnn. by rewrite coefC eqxx addn0. }
  have Hc := ltn_ord c. have Hi := ltn_ord i. rewrite nth_cat size_sh. case: (ltnP i n) => Hin.
  - rewrite nth_sh // coefXnM. case: (ltnP (m + n - c.+1) (n - i.+1)) => H.
    + have -> : (i <= c <= i + m)%N = false by lia. done.
    + have -> : (m + n - c.+1 - (n - i.+1) = m + i - c)%N by lia. case: ifP => // H'. apply: nth_default. rewrite sA. lia.
  - rewrite nth_sh; last by lia. rewrite coefXnM. case: (ltnP (m + n - c.+1) (m - (i - n).+1)) => H.
    + have -> : (i - n <= c <= i - n + n)%N = false by lia. done.
    + have -> : (m + n - c.+1 - (m - (i - n).+1) = n + (i - n) - c)%N by lia. case: ifP => // H'. apply: nth_default. rewrite sB. lia.
Qed.
Lemma Res_swap A B : A != 0 -> B != 0 -> Res A B = (-1) ^+ (pdeg A * pdeg B) * Res B A.
Proof.
  rewrite -!size_poly_gt0 /pdeg. case EA: (size A) => [|m] //. case EB: (size B) => [|n] // _ _. rewrite -(sres_Res EA EB) -(sres_Res EB EA) sres_swap /=.
  by rewrite -(polyC1 R) -polyCN -polyC_exp coefCM.
Qed.
Lemma last_unwrapE (A : Type) (l : seq A) : last_unwrap l = if l is x :: l' then Some (last x l') else None.
Proof. rewrite /last_unwrap revE. case: (lastP l) => [|s x] //. rewrite rev_rcons. case: s => //= y s. by rewrite last_rcons. Qed.

Definition prs := @pseudo_remainder_subresultant_sequence O div.
(* the ordered case *)
Lemma prs_core a b m n : size (Poly a) = m.+1 -> size (Poly b) = n.+1 -> (n <= m)%N -> exists pr r0 prs' ss', [/\ @pseudorem_unwrap O div a b = Some pr,
  r0 = @p_mul_scalar O pr (@nat_pow O (- (1 : R)) (N.of_nat (m - n + 1))),
  @prs_loop O div (n + 1) b n r0 (lead_coef (Poly b)) (- @nat_pow O (lead_coef (Poly b)) (N.of_nat (m - n))) [:: a; b] [:: 1; @nat_pow O (lead_coef (Poly b)) (N.of_nat (m - n))]
    = Some ([:: a, b & prs'], [:: 1, lead_coef (Poly b) ^+ (m - n) & ss']) &
  [/\ size prs' = size ss', (forall i, (i < size prs')%N -> sub_entry m n (Poly a) (Poly b) (nth [::] prs' i) (nth 0 ss' i)),
   gcdp (Poly a) (Poly b) %= Poly (last b prs') & (last 1 (lead_coef (Poly b) ^+ (m - n) :: ss')) = Res (Poly a) (Poly b) \/ (1 < size (Poly (last b prs')))%N ] /\
   ((1 < size (Poly (last b prs')))%N -> Res (Poly a) (Poly b) = 0)].
Proof.
  move=> sa sb Hmn. have [pr [Q [Epr E sQ sP]]] := pseudorem_ok D sa sb Hmn. exists pr. rewrite !nat_powE.
  have -> : N.to_nat (N.of_nat (m - n)) = (m - n)%N by lia. have -> : N.to_nat (N.of_nat (m - n + 1)) = (m - n).+1 by lia.
  set c := (- 1) ^+ (m - n).+1. have Hc : c != 0 by rewrite expf_neq0 // oppr_eq0 oner_eq0.
  set r := @p_mul_scalar O pr c. exists r. have Er : Poly r = c *: Poly pr by rewrite /r p_mul_scalarE Poly_polyseq.
  have Hlb : lead_coef (Poly b) != 0 by rewrite lead_coef_eq0 -size_poly_eq0 sb.
  have [|prs' [ss' [E1 E2 E3 E4 E5]]] := @prs_loop_ok R div D m n (Poly a) (Poly b) (n + 1) b r n (lead_coef (Poly b)) (- lead_coef (Poly b) ^+ (m - n)) [:: a; b] [:: 1; lead_coef (Poly b) ^+ (m - n)] (lead_coef (Poly b) ^+ (m - n)) sb _ erefl erefl.
  - case: (@eqP _ (Poly r) 0) => [->|/eqP Hr]; [by left|right]. have [k sk] : exists k, size (Poly r) = k.+1 by exists (size (Poly r)).-1; rewrite prednK // size_poly_gt0.
    have Hk : (k < n)%N by rewrite -sk Er size_scale.
    split.
    + exists n.-1; first by lia. rewrite (step_top sb Hmn E sQ sP); last by lia. by rewrite Er -mul_polyC polyC_exp polyCN polyC1.
    + exists k. split; [|lia|lia]. apply: (inv_first Hmn sa sb E sQ _ sk Hk). by rewrite Er.
  - exists prs', ss'. split=> //.
    have Hg : gcdp (Poly a) (Poly b) %= Poly (last b prs').
    { apply: eqp_trans E4. rewrite Er. have Hb0 : lead_coef (Poly b) ^+ (m - n).+1 != 0 by rewrite expf_neq0.
      apply: eqp_trans (step_gcd Hb0 (oner_neq0 _) E (esym (scale1r _))) _. by rewrite eqp_sym gcdp_scaler. }
    have HR : (1 < size (Poly (last b prs')))%N -> Res (Poly a) (Poly b) = 0.
    { move=> H. rewrite -(sres_Res sa sb). case: eqP E5 => [R0 Ep|R0 [_ /(_ H) ->]]; last by rewrite coef0. have P0 : Poly pr = 0 by move/eqP: R0; rewrite Er scale_poly_eq0 (negPf Hc) => /eqP.
      rewrite (step_zero sb Hmn E sQ sP) ?coef0 //. move: H. by rewrite Ep /= sb ltnS. }
    split=> //. split=> //. case: (ltnP 1 (size (Poly (last b prs')))) => H; [by right|left].
    rewrite -(sres_Res sa sb). case: eqP E5 => [R0 Ep|R0 [Hne _]].
    + move: H E2. rewrite Ep /= sb. case: ss' {E1 E3} => // H _ /=. have n0 : n = 0%N by lia. rewrite n0 in sb *. by rewrite sres_n0 // coefC eqxx subn0.
    + move: Hne E2 E3 H. case: prs' {E1 E4 Hg HR} => // p0 prs' _. case: ss' => [|s0 ss'] // [E2] /= E3 H. have := E3 (size prs') (ltnSn _).
      rewrite -[size prs']/((size (p0 :: prs')).-1) nth_last /= E2 -[size ss']/((size (s0 :: ss')).-1) nth_last /= => -[_ -> _]. rewrite /deg.
      by move: H; case: (size (Poly (last p0 prs'))) => [|[|]].
Qed.
Definition pp A := @pseudo_remainder_subresultant_sequence O div A.
Lemma prs_ordered a b m n : size (Poly a) = m.+1 -> size (Poly b) = n.+1 -> (n <= m)%N -> exists prs' ss',
  @pseudo_remainder_subresultant_sequence O div a b = Some ([:: a, b & prs'], [:: 1, lead_coef (Poly b) ^+ (m - n) & ss']) /\
  ([/\ size prs' = size ss', (forall i, (i < size prs')%N -> sub_entry m n (Poly a) (Poly b) (nth [::] prs' i) (nth 0 ss' i)),
   gcdp (Poly a) (Poly b) %= Poly (last b prs') & (last 1 (lead_coef (Poly b) ^+ (m - n) :: ss')) = Res (Poly a) (Poly b) \/ (1 < size (Poly (last b prs')))%N ] /\
   ((1 < size (Poly (last b prs')))%N -> Res (Poly a) (Poly b) = 0)).
Proof.
  move=> sa sb Hmn. have [pr [r [prs' [ss' [E1 E2 E3 E4]]]]] := prs_core sa sb Hmn. exists prs', ss'. split=> //.
  rewrite /pseudo_remainder_subresultant_sequence (p_degree_Some sa) (p_degree_Some sb). have -> : (m <? n)%N = false by apply/Nat.ltb_ge; lia. have -> : (n <=? m)%N by apply/Nat.leb_le; lia.
  cbn match. rewrite E1. cbn [obind]. have -> : @p_leading_coeff O b = Some (lead_coef (Poly b)) by rewrite p_leading_coeffE -size_poly_eq0 sb. cbn [obind].
  rewrite -E3 E2 //.
Qed.
Lemma prs_swap a b m n : size (Poly a) = m.+1 -> size (Poly b) = n.+1 -> (m < n)%N -> @pseudo_remainder_subresultant_sequence O div a b = @pseudo_remainder_subresultant_sequence O div b a.
Proof.
  move=> sa sb Hmn. rewrite /pseudo_remainder_subresultant_sequence (p_degree_Some sa) (p_degree_Some sb). have -> : (m <? n)%N by apply/Nat.ltb_lt; lia. by have -> : (n <? m)%N = false by apply/Nat.ltb_ge; lia.
Qed.
Lemma deg_of a : Poly a != 0 -> exists m, size (Poly a) = m.+1.
Proof. rewrite -size_poly_gt0. by case: (size _) => // m _; exists m. Qed.
Lemma res_core a b m n : size (Poly a) = m.+1 -> size (Poly b) = n.+1 -> (n <= m)%N -> @resultant O div a b = Some (Res (Poly a) (Poly b)).
Proof.
  move=> sa sb Hmn. rewrite /resultant !p_is_zeroE -!size_poly_eq0 sa sb. cbn [orb eq_op nat_eqType eqn]. 
  have [prs' [ss' [E1 [[E2 E3 E4 E5] E6]]]] := prs_ordered sa sb Hmn. rewrite E1 /=. rewrite !last_unwrapE. cbn [obind]. rewrite p_degreeE. cbn [last].
  have Hg : Poly (last b prs') != 0. { rewrite -size_poly_eq0 -(eqp_size E4) size_poly_eq0 gcdp_eq0 -!size_poly_eq0 sa sb //. }
  move: Hg E5 E6. rewrite -size_poly_eq0. case: (size _) => // k _ E5 E6. cbn [obind]. case: Nat.ltb_spec => Hk.
  - by rewrite E6 //; lia.
  - case: E5 => [<-|] //. lia.
Qed.
Lemma resultant_ok a b : @resultant O div a b = Some (if (Poly a == 0) || (Poly b == 0) then 0 else if (size (Poly a) < size (Poly b))%N then Res (Poly b) (Poly a) else Res (Poly a) (Poly b)).
Proof.
  case: (boolP (Poly a == 0)) => Ha; first by rewrite /resultant !p_is_zeroE Ha. case: (boolP (Poly b == 0)) => Hb; first by rewrite /resultant !p_is_zeroE Hb orbT. cbn [orb].
  have [m sa] := deg_of Ha. have [n sb] := deg_of Hb. rewrite sa sb ltnS. case: (ltnP m n) => Hmn; last exact: res_core sa sb Hmn.
  rewrite -(res_core sb sa (ltnW Hmn)). rewrite /resultant !p_is_zeroE (negPf Ha) (negPf Hb) /= (prs_swap sa sb Hmn) //.
Qed.
(* subresultant_gcd *)
Lemma sgcd_ok a b : match @subresultant_gcd O div a b with Some g => (Poly a != 0) || (Poly b != 0) /\ gcdp (Poly a) (Poly b) %= Poly g | None => Poly a = 0 /\ Poly b = 0 end.
Proof.
  rewrite /subresultant_gcd. case: (boolP (Poly a == 0)) => [/eqP|] Ha; case: (boolP (Poly b == 0)) => [/eqP|] Hb.
  - by rewrite /pseudo_remainder_subresultant_sequence !p_degreeE Ha Hb size_poly0.
  - rewrite /pseudo_remainder_subresultant_sequence !p_degreeE Ha size_poly0. have [n sb] := deg_of Hb. by rewrite sb /= gcd0p eqpxx.
  - rewrite /pseudo_remainder_subresultant_sequence !p_degreeE Hb size_poly0. have [n sa] := deg_of Ha. by rewrite sa /= gcdp0 eqpxx.
  - have [m sa] := deg_of Ha. have [n sb] := deg_of Hb. case: (ltnP m n) => Hmn.
    + rewrite (prs_swap sa sb Hmn). have [prs' [ss' [E1 [[E2 E3 E4 E5] E6]]]] := prs_ordered sb sa (ltnW Hmn). rewrite E1 /= last_unwrapE. split=> //. by apply: eqp_trans (gcdpC _ _) E4.
    + have [prs' [ss' [E1 [[E2 E3 E4 E5] E6]]]] := prs_ordered sa sb Hmn. by rewrite E1 /= last_unwrapE.
Qed.
(* the resultant vanishes exactly when the two polynomials have a common factor of positive degree *)
Lemma Res_eq0 a b : Poly a != 0 -> Poly b != 0 -> (Res (Poly a) (Poly b) == 0) = (1 < size (gcdp (Poly a) (Poly b)))%N.
Proof.
  move=> Ha Hb. have [m sa] := deg_of Ha. have [n sb] := deg_of Hb.
  wlog Hmn : a b m n sa sb Ha Hb / (n <= m)%N.
  { move=> W. case: (leqP n m) => Hmn; first exact: W sa sb Ha Hb Hmn. rewrite (eqp_size (gcdpC _ _)) -(W b a n m sb sa Hb Ha (ltnW Hmn)) Res_swap // mulf_eq0 signr_eq0 //. }
  have [prs' [ss' [E1 [[E2 E3 E4 E5] E6]]]] := prs_ordered sa sb Hmn. rewrite (eqp_size E4). case: ltnP => H; first by rewrite E6 ?eqxx.
  case: E5 => [<-|]; last by rewrite ltnNge H. apply: negbTE. have Hl : lead_coef (Poly b) ^+ (m - n) != 0 by rewrite expf_neq0 // lead_coef_eq0.
  case: ss' {E1} E2 E3 => [|s0 ss'] //= E2 E3. have := E3 (size ss'). rewrite E2 ltnS leqnn => /(_ isT) [_ _]. rewrite -[size ss']/((size (s0 :: ss')).-1) nth_last //.
Qed.
End D.
