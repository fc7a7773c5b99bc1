(* is_squarefree and discriminant *)
From Coq Require Import List Arith NArith Bool.
From mathcomp Require Import all_ssreflect all_algebra all_field separable.
From mathcomp Require Import zify.
From Coq Require Import Lia.
From Verif Require Import RingSpec RingModel RingProofs PermModel MatModel MatSpec MatProofs MatProofs2 PolyModel PolyProofs PolyProofs2 PolyProofs3 PolySpec PolyProofs6 PolyProofs7 PolyProofs8 PolyProofs9.
Close Scope rs_scope.
Set Implicit Arguments.
Unset Strict Implicit.
Unset Printing Implicit Defensive.
Import GRing.Theory.
Local Open Scope ring_scope.

Section D.
Variable R : idomainType.
Notation O := (mc_ops R).
Variable div : div_op O.
Hypothesis D : idom_laws O div.
Implicit Types (a b : seq R) (A B Q C : {poly R}).

Lemma sqfree_ok a : @is_squarefree O div a = if Poly a == 0 then None else Some (coprimep (Poly a) (Poly a)^`()).
Proof.
  rewrite /is_squarefree. have := sgcd_ok D a (@p_derivative O a). rewrite p_derivativeE. case: subresultant_gcd => [g|].
  - case=> H Hg. have Ha : Poly a != 0 by apply/eqP => E0; move: H; rewrite E0 linear0 eqxx.
    rewrite (negPf Ha). cbn [obind]. rewrite p_degreeE /coprimep (eqp_size Hg). have : (0 < size (Poly g))%N by rewrite -(eqp_size Hg) size_poly_gt0 gcdp_eq0 (negPf Ha).
    by case: (size (Poly g)) => [|[|n]].
  - by case=> -> _; rewrite eqxx.
Qed.
Lemma size_deriv0 A n : (n.+1)%:R != 0 :> R -> size A = n.+2 -> size A^`() = n.+1.
Proof.
  move=> Hn sA. apply/eqP. rewrite eqn_leq. apply/andP; split.
  - apply/leq_sizeP => i Hi. rewrite coef_deriv. have -> : A`_i.+1 = 0 by apply: nth_default; rewrite sA. by rewrite mul0rn.
  - apply: contraTT Hn. rewrite -ltnNge ltnS negbK => /leq_sizeP /(_ n (leqnn n)). rewrite coef_deriv -mulr_natr => /eqP. rewrite mulf_eq0 => /orP[/eqP E|] //.
    exfalso. have : lead_coef A != 0 by rewrite lead_coef_eq0 -size_poly_eq0 sA. by rewrite lead_coefE sA /= E eqxx.
Qed.
Hypothesis char0 : forall n, (n.+1)%:R != 0 :> R.
Lemma sqfree_char0 A : A != 0 -> (coprimep A A^`() <-> forall u : {poly R}, u ^+ 2 %| A -> (size u <= 1)%N).
Proof.
  move=> HA. split.
  - move=> H u Hu. rewrite leqNgt. apply/negP => Hs. have := @separable_nosquare _ A u 2 H isT. rewrite Hu. have -> : size u != 1%N by rewrite gtn_eqF. by move/(_ isT).
  - move=> H. apply/separable_polyP. split.
    + move=> u v Huv. rewrite /coprimep eqn_leq. apply/andP; split.
      * apply: H. apply: dvdp_trans Huv. rewrite expr2. by apply: dvdp_mul; rewrite ?dvdp_gcdl ?dvdp_gcdr.
      * rewrite size_poly_gt0 gcdp_eq0. apply/negP => /andP[/eqP E _]. move: Huv. by rewrite E mul0r dvd0p (negPf HA).
    + move=> u _ Hs. rewrite -size_poly_gt0. case E: (size u) Hs => [|[|k]] // _. by rewrite (size_deriv0 (char0 k) E).
Qed.
End D.

Section Disc.
Variable R : idomainType.
Notation O := (mc_ops R).
Variable div : div_op O.
Hypothesis D : idom_laws O div.
Implicit Types (a b : seq R) (A B Q C : {poly R}).
Lemma Res_deriv_dvd A n : size A = n.+2 -> (n.+1)%:R != 0 :> R -> exists d, Res A A^`() = d * lead_coef A.
Proof.
  move=> sA Hn. have sD := size_deriv0 Hn sA. have EL : A`_n.+1 = lead_coef A by rewrite lead_coefE sA.
  rewrite /Res /pdeg sA sD /=. set M := sylvester _ _ _ _.
  have K i : exists c, M i ord0 = c * lead_coef A.
  { rewrite mxE. case: (ltnP i n) => Hi.
    - case: ifP => H; last by exists 0; rewrite mul0r. have -> : (n.+1 + i - ord0 = n.+1)%N by move: H => /=; lia. exists 1. by rewrite mul1r EL.
    - case: ifP => H; last by exists 0; rewrite mul0r. have -> : (n + (i - n) - @ord0 (n + n) = n)%N by move: H => /=; lia. exists (n.+1)%:R. by rewrite coef_deriv EL mulr_natl. }
  rewrite (expand_det_col M ord0). elim/big_rec: _ => [|i x _ [d ->]]; first by exists 0; rewrite mul0r. have [c ->] := K i. exists (c * cofactor M i ord0 + d). by rewrite mulrDl mulrAC.
Qed.
Lemma mod4_sign n : (n.+1 mod 4 <? 2)%N = ~~ odd (n.+1 * n)./2.
Proof.
  have [q [r [E Hr]]] : exists q r, (n.+1 = 4 * q + r)%N /\ (r < 4)%N.
  { exists (n.+1 %/ 4)%N, (n.+1 %% 4)%N. split; last by rewrite ltn_mod. rewrite mulnC. exact: divn_eq. }
  have Em : (n.+1 mod 4 = r)%N by symmetry; apply: (Nat.mod_unique _ _ q); lia. rewrite Em.
  have [h Eh] : exists h, ((n.+1 * n)./2 = 2 * h + (if (r < 2)%N then 0 else 1))%N.
  { case: r Hr E {Em} => [|[|[|[|r]]]] // _ E.
    - exists (q * (4 * q - 1))%N. have -> : (n.+1 * n = (4 * q * (4 * q - 1)))%N by nia. have -> : (4 * q * (4 * q - 1) = (2 * (q * (4 * q - 1))).*2)%N by rewrite -muln2; nia. rewrite doubleK. by rewrite addn0.
    - exists (q * (4 * q + 1))%N. have -> : (n.+1 * n = (2 * (q * (4 * q + 1))).*2)%N by rewrite -muln2; nia. rewrite doubleK. by rewrite addn0.
    - exists (4 * q * q + 3 * q)%N. have -> : (n.+1 * n = (2 * (4 * q * q + 3 * q) + 1).*2)%N by rewrite -muln2; nia. rewrite doubleK. done.
    - exists (4 * q * q + 5 * q + 1)%N. have -> : (n.+1 * n = (2 * (4 * q * q + 5 * q + 1) + 1).*2)%N by rewrite -muln2; nia. rewrite doubleK. done. }
  rewrite Eh oddD oddM /=. move: Hr. by case: r {E Em Eh} => [|[|[|[|r]]]].
Qed.
Lemma disc_ok a : @discriminant O div a =
  if (size (Poly a) <= 1)%N then Some None else @discriminant O div a.
Proof. case: leqP => // H. rewrite /discriminant p_degreeE. move: H. by case: (size _) => [|[|k]]. Qed.
Lemma disc_val a n : size (Poly a) = n.+2 -> (n.+1)%:R != 0 :> R -> exists d, @discriminant O div a = Some (Some d) /\ lead_coef (Poly a) * d = (-1) ^+ (n.+1 * n)./2 * Res (Poly a) (Poly a)^`().
Proof.
  move=> sa Hn. have sD := size_deriv0 Hn sa. rewrite /discriminant p_degreeE sa. have -> : (n.+1 =? 0)%N = false by []. rewrite (resultant_ok D) p_derivativeE.
  have Ha : Poly a != 0 by rewrite -size_poly_eq0 sa. have Hd : (Poly a)^`() != 0 by rewrite -size_poly_eq0 sD. rewrite (negPf Ha) (negPf Hd) sa sD ltnS ltnNge leqW //. cbn [orb negb obind].
  have El : @p_coeff O a n.+1 = lead_coef (Poly a) by rewrite p_coeffE lead_coefE sa. rewrite El.
  have [d Ed] := Res_deriv_dvd sa Hn. have := divP D (Res (Poly a) (Poly a)^`()) (lead_coef (Poly a)).
  case E: div => [q||].
  - case=> Eq Hl. cbn [obind]. eexists. split; first by reflexivity.
    have Es : ((n.+1 mod 4 <? 2)%N) = ~~ odd (n.+1 * n)./2 by exact: mod4_sign.
    rewrite Es -signr_odd Eq. case: (odd _); rewrite /= ?expr0 ?expr1 ?mul1r ?mulN1r ?mulrN mulrC //.
  - move/eqP. by rewrite lead_coef_eq0 (negPf Ha).
  - case=> _ H. by case: (H d).
Qed.
End Disc.
