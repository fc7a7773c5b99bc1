(* The subresultant pseudo-remainder sequence computed by the model, read through PolyProofs7. *)
From Coq Require Import List Arith NArith Bool.
From mathcomp Require Import all_ssreflect all_algebra.
From mathcomp Require Import zify.
From Coq Require Import Lia.
From Verif Require Import RingSpec RingModel RingProofs PermModel MatModel MatSpec MatProofs MatProofs2 PolyModel PolyProofs PolyProofs2 PolyProofs3 PolyProofs6 PolyProofs7.
Close Scope rs_scope.
Set Implicit Arguments.
Unset Strict Implicit.
Unset Printing Implicit Defensive.
Import GRing.Theory.
Local Open Scope ring_scope.

Section D.
Variable R : idomainType.
Notation O := (mc_ops R).
Variable div : div_op O.
Hypothesis D : idom_laws O div.
Implicit Types (a b : seq R) (A B Q C : {poly R}).
Lemma neg_pow (x s t : R) k : t * s ^+ k = x ^+ k.+1 -> (- x) ^+ k.+1 = - t * (- s) ^+ k.
Proof. move=> E. by rewrite exprNn -E (exprNn s) exprS !mulNr mul1r mulrCA. Qed.

Lemma Poly_c (c : R) : Poly [:: c] = c%:P.
Proof. by rewrite /= cons_poly_def mul0r add0r. Qed.
Lemma pseudo_exists n B k : size B = n.+1 -> forall A, (size A <= n + k)%N -> exists Q P, lead_coef B ^+ k *: A = Q * B + P /\ (size P <= n)%N.
Proof.
  move=> sB. elim: k => [|k IH] A HA; first by exists 0, A; rewrite expr0 scale1r mul0r add0r; split=> //; move: HA; rewrite addn0.
  set b := lead_coef B. have [|Q [P [E sP]]] := IH (b *: A - A`_(n + k) *: ('X^k * B)).
  - apply/leq_sizeP => i Hi. rewrite coefB !coefZ coefXnM. case: ltnP => H; first by exfalso; lia.
    case: (@eqP _ i (n + k)%N) => [->|Hne].
    + by rewrite addnK mulrC /b lead_coefE sB /= subrr.
    + have -> : A`_i = 0 by apply: nth_default; apply: leq_trans HA _; lia. have -> : B`_(i - k) = 0 by apply: nth_default; rewrite sB; lia. by rewrite !mulr0 subrr.
  - exists (Q + b ^+ k *: (A`_(n + k) *: 'X^k)), P. split=> //. rewrite exprSr -scalerA. move: E. rewrite scalerBr => /eqP. rewrite subr_eq => /eqP ->.
    rewrite mulrDl -!scalerAl -/b addrAC //.
Qed.
Lemma pseudorem_ok a b m n : size (Poly a) = m.+1 -> size (Poly b) = n.+1 -> (n <= m)%N -> exists r Q, [/\ @pseudorem_unwrap O div a b = Some r,
  lead_coef (Poly b) ^+ (m - n).+1 *: Poly a = Q * Poly b + Poly r, (size Q <= (m - n).+1)%N & (size (Poly r) <= n)%N].
Proof.
  move=> sa sb Hmn. rewrite /pseudorem_unwrap /pseudorem !p_num_coeffsE sa sb. have -> : (n.+1 =? 0)%N = false by []. have -> : (m.+1 <? n.+1)%N = false by apply/Nat.ltb_ge; lia.
  have Ec : @p_coeff O b (n.+1 - 1) = lead_coef (Poly b) by rewrite p_coeffE lead_coefE sb subn1.
  rewrite Ec nat_powE. have -> : N.to_nat (N.of_nat (m.+1 - n.+1 + 1)) = (m - n).+1 by lia.
  have := try_quorem_ok D (@p_mul O a [:: lead_coef (Poly b) ^+ (m - n).+1]) b.
  have [|Q [P [E sP]]] := @pseudo_exists n (Poly b) (m - n).+1 sb (Poly a); first by rewrite sa; lia.
  have Em : Poly (@p_mul O a [:: lead_coef (Poly b) ^+ (m - n).+1]) = lead_coef (Poly b) ^+ (m - n).+1 *: Poly a by rewrite p_mulE Poly_polyseq Poly_c mulrC mul_polyC.
  rewrite Em. case: try_quorem => [[[q r]||]|] //.
  - case=> Hb E2 sr. cbn [obind]. exists r, (Poly q). split=> //; last by move: sr; rewrite sb.
    case: (@eqP _ (Poly q) 0) => [->|/eqP Hq]; first by rewrite size_poly0. have Eq : Poly q * Poly b = lead_coef (Poly b) ^+ (m - n).+1 *: Poly a - Poly r by rewrite E2 addrK.
    have : (size (Poly q * Poly b)%R <= m.+1)%N. { rewrite Eq. apply: leq_trans (size_add _ _) _. rewrite geq_max size_opp (leq_trans (size_scale_leq _ _)) ?sa //=. apply: leq_trans (ltnW sr) _. rewrite sb. lia. }
    rewrite size_mul // sb. set z := size _. lia.
  - move=> Hb. by move: sb; rewrite Hb size_poly0.
  - case=> Hb H. exfalso. apply: (H Q P); last exact: E. by rewrite sb ltnS.
Qed.

Section Chain.
Variables (m0 n0 : nat) (F G : {poly R}).
Notation S j := (sres m0 n0 j F G).
Notation inv := (inv m0 n0 F G).
Definition deg (p : {poly R}) := (size p).-1.
(* p is one of the subresultants, s the principal coefficient of the subresultant in the degree of p *)
Definition sub_entry (p : seq R) (s : R) := [/\ exists2 j, (j < n0)%N & Poly p = S j, s = (S (deg (Poly p)))`_(deg (Poly p)) & s != 0].

Lemma p_degree_Some (l : seq R) k : size (Poly l) = k.+1 -> @p_degree O l = Some k.
Proof. by rewrite p_degreeE => ->. Qed.
Lemma step_gcd A B Q P C (u v : R) : u != 0 -> v != 0 -> u *: A = Q * B + P -> P = v *: C -> gcdp A B %= gcdp B C.
Proof.
  move=> Hu Hv E EP. apply: eqp_trans (gcdpC _ _) _. apply: eqp_trans (_ : gcdp B (u *: A) %= _); first by rewrite eqp_sym gcdp_scaler.
  rewrite E. apply: eqp_trans (gcdp_addl_mul Q P B) _. rewrite EP. exact: gcdp_scaler.
Qed.
Lemma prs_loop_ok fuel : forall b r m lc gamma prs ss s, size (Poly b) = m.+1 ->
  (Poly r = 0 \/ (exists2 j, (j < n0)%N & Poly r = S j) /\ exists n, [/\ inv m n (Poly b) (Poly r) s, (n < n0)%N & (n < fuel)%N]) -> gamma = - s -> lc = lead_coef (Poly b) ->
  exists prs' ss', [/\ @prs_loop O div fuel b m r lc gamma prs ss = Some (prs ++ prs', ss ++ ss'), size prs' = size ss',
    (forall i, (i < size prs')%N -> sub_entry (nth [::] prs' i) (nth 0 ss' i)), gcdp (Poly b) (Poly r) %= Poly (last b prs') &
    if Poly r == 0 then prs' = [::] else prs' != [::] /\ ((1 < size (Poly (last b prs')))%N -> S 0 = 0)].
Proof.
  have base fuel' b r m lc gamma prs ss : Poly r = 0 -> exists prs' ss', [/\ @prs_loop O div fuel' b m r lc gamma prs ss = Some (prs ++ prs', ss ++ ss'), size prs' = size ss',
    (forall i, (i < size prs')%N -> sub_entry (nth [::] prs' i) (nth 0 ss' i)), gcdp (Poly b) (Poly r) %= Poly (last b prs') & if Poly r == 0 then prs' = [::] else prs' != [::] /\ ((1 < size (Poly (last b prs')))%N -> S 0 = 0)].
  { move=> Er. exists [::], [::]. split=> //; last by rewrite Er eqxx.
    - have Ez : @p_is_zero O r by rewrite p_is_zeroE Er. have Ed : @p_degree O r = None by rewrite p_degreeE Er size_poly0. by case: fuel' => [|f]; cbn [prs_loop]; rewrite Ed Ez !cats0.
    - by rewrite Er gcdp0 /= eqpxx. }
  elim: fuel => [|fuel IH] b r m lc gamma prs ss s sb Hr Eg El.
  - case: Hr => [Er|[_ [n [_ _]]]] //. exact: base.
  case: Hr => [Er|[Hj [n [I Hn0 Hn]]]]; first exact: base.
  have [Hnm _ sr Hs HI] := I. cbn [prs_loop]. rewrite (p_degree_Some sr). have -> : (n <=? m)%N by apply/Nat.leb_le; lia. cbn match.
  have [pr [Q [Epr E sQ sP]]] := pseudorem_ok sb sr (ltnW Hnm). rewrite Epr. cbn [obind].
  rewrite !nat_powE. have -> : N.to_nat (N.of_nat (m - n)) = (m - n)%N by lia. have -> : N.to_nat (N.of_nat (m - n - 1)) = (m - n.+1)%N by lia.
  rewrite Eg El. set be := rmul _ _. have Ebe : be = - lead_coef (Poly b) * (- s) ^+ (m - n) by []. 
  have Hbe : be != 0 by rewrite Ebe mulf_neq0 ?expf_neq0 // oppr_eq0 // lead_coef_eq0 -size_poly_eq0 sb.
  have [C EC HC] : exists2 C, Poly pr = be *: C & (C = 0 \/ exists2 j, (j < n0)%N & C = S j).
  { case: (posnP n) => [Hz|Hz].
    - exists 0; last by left. rewrite scaler0. apply/eqP. rewrite -size_poly_eq0. move: sP. rewrite Hz. by case: (size _).
    - exists (S n.-1); first by rewrite Ebe; apply: inv_prem I E sQ sP Hz. right. exists n.-1 => //. lia. }
  rewrite (p_div_total D). have := pdivP D pr [:: be]. rewrite Poly_c. case: pdiv => [c||]; last first.
  - case=> _ H. case: (H C). by rewrite EC mulrC mul_polyC.
  - move/eqP. by rewrite polyC_eq0 (negPf Hbe).
  case=> _ Ec. have {Ec} Ec : Poly c = C. { apply: (@mulIf _ be%:P); first by rewrite polyC_eq0. by rewrite -Ec EC mulrC mul_polyC. }
  have El' : @p_leading_coeff O r = Some (lead_coef (Poly r)) by rewrite p_leading_coeffE -size_poly_eq0 sr. cbn [obind]. rewrite El'. cbn [obind]. rewrite nat_powE. have -> : N.to_nat (N.of_nat (m - n)) = (m - n)%N by lia.
  set s' := (S n)`_n. have Es' : s' * s ^+ (m - n.+1) = lead_coef (Poly r) ^+ (m - n) by rewrite mulrC; exact: inv_coef I.
  have Hs' : s' != 0. { apply/eqP => H. move: Es'. rewrite H mul0r => /esym/eqP. rewrite expf_eq0 lead_coef_eq0 -size_poly_eq0 sr andbF //. }
  set ga := (if _ then _ else _). have -> : ga = Some (- s').
  { rewrite /ga. case: Nat.ltb_spec => H.
    - have := divP D ((- lead_coef (Poly r)) ^+ (m - n)) ((- s) ^+ (m - n.+1)).
      have Ex : (- lead_coef (Poly r)) ^+ (m - n) = - s' * (- s) ^+ (m - n.+1) by move: Es'; rewrite (_ : (m - n = (m - n.+1).+1)%N); [apply: neg_pow|lia].
      have Hns : (- s) ^+ (m - n.+1) != 0 by rewrite expf_neq0 // oppr_eq0.
      rewrite -/(rneg (r := O)) /=. case: div => [q||]; last first.
      + case=> _ K. by case: (K (- s')).
      + move/eqP. by rewrite (negPf Hns).
      + case=> Eq _. congr Some. apply: (mulIf Hns). by rewrite -Eq Ex.
    - congr (Some (- _)). move: Es'. have -> : (m - n.+1 = 0)%N by lia. have -> : (m - n = 1)%N by lia. by rewrite expr0 mulr1 expr1 => ->. }
  cbn [obind].
  have [|prs' [ss' [E1 E2 E3 E4 E5]]] := IH r c n (lead_coef (Poly r)) (- s') (prs ++ [:: r]) (ss ++ [:: - - s']) s' sr _ erefl erefl.
  { case: (@eqP _ C 0) => [C0|/eqP C0]; first by left; rewrite Ec. right. case: HC => [C0'|[j H1 H2]]; first by move: C0; rewrite C0' eqxx. split; first by exists j; rewrite ?Ec.
    have [k sC] : exists k, size C = k.+1 by exists (size C).-1; rewrite prednK // size_poly_gt0.
    have Hk : (k < n)%N by rewrite -sC; move: sP; rewrite EC size_scale.
    exists k; split; [|lia|lia]. rewrite Ec. apply: (inv_next I E sQ _ sC Hk Hs' Es'). by rewrite EC. }
  exists (r :: prs'), (s' :: ss'). split.
  - rewrite E1 -!catA /= opprK //.
  - by rewrite /= E2.
  - case=> [|i] //= Hi; last exact: E3. split=> //. by rewrite /deg sr.
  - have Hb0 : lead_coef (Poly r) ^+ (m - n).+1 != 0 by rewrite expf_neq0 // lead_coef_eq0 -size_poly_eq0 sr.
    apply: eqp_trans (step_gcd Hb0 Hbe E EC) _. by rewrite -Ec.
  - rewrite -size_poly_eq0 sr. split=> // H. case: (@eqP _ C 0) => [C0|/eqP C0]; last by move: E5; rewrite Ec (negPf C0) => -[_]; apply.
    have Ep : prs' = [::] by move: E5; rewrite Ec C0 eqxx.
    rewrite Ep /= in H. have := @step_zero _ m n (Poly b) (Poly r) Q (Poly pr) sr (ltnW Hnm) E sQ sP 0. rewrite EC C0 scaler0. rewrite sr in H. move/(_ erefl H).
    rewrite HI // => /eqP. rewrite mulf_eq0 polyC_eq0 mulf_eq0 !expf_eq0 (negPf Hs) lead_coef_eq0 -size_poly_eq0 sb !andbF /= => /eqP //.
Qed.
End Chain.
End D.
