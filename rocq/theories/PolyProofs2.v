(* Division of polynomials over an integral domain *)
From Coq Require Import List Arith NArith Bool.
From mathcomp Require Import all_ssreflect all_algebra.
From mathcomp Require Import zify.
From Coq Require Import Lia.
From Verif Require Import RingSpec RingModel RingProofs PermModel MatModel MatSpec MatProofs MatProofs2 PolyModel PolyProofs.
Close Scope rs_scope.
Set Implicit Arguments.
Unset Strict Implicit.
Unset Printing Implicit Defensive.
Import GRing.Theory.
Local Open Scope ring_scope.

Section D.
Variable R : idomainType.
Notation O := (mc_ops R).
Variable div : div_op O.
Hypothesis D : idom_laws O div.
Implicit Types (a b : seq R) (A B Q : {poly R}).

Lemma divP (x y : R) : match div x y with
  | DivideByZero => y = 0 | DivOk q => x = q * y /\ y != 0 | NotDivisible => y != 0 /\ forall q, x <> q * y end.
Proof.
  have Y0 : forall d, div x y = d -> d <> DivideByZero -> y != 0.
  { move=> d E H. apply/eqP => Hy. case: H. rewrite -E. apply/(div_zero O div D). by apply/eqP. }
  case E: (div x y) => [q||].
  - split; last exact: Y0 E _. by have /= /eqP := div_ok O div D _ _ _ E.
  - by have /= /eqP := proj1 (div_zero O div D x y) E.
  - split; first exact: Y0 E _. move=> q H. apply: (div_not O div D _ _ E). exists q. apply/eqP. by rewrite /= H mulrC.
Qed.
Lemma size_lt_coef A n : (size A <= n.+1)%N -> A`_n = 0 -> (size A <= n)%N.
Proof.
  move=> H E. rewrite leqNgt. apply/negP => H'. have Hs : size A = n.+1 by apply/eqP; rewrite eqn_leq H H'.
  have : lead_coef A != 0 by rewrite lead_coef_eq0 -size_poly_gt0 Hs. by rewrite /lead_coef Hs E eqxx.
Qed.
Lemma coef_top Q B i : B != 0 -> (size (Q * B)%R <= i + size B)%N -> (Q * B)`_(i + (size B).-1) = Q`_i * lead_coef B.
Proof.
  move=> HB H. case: (@eqP _ Q 0) => [->|/eqP HQ]; first by rewrite mul0r !coef0 mul0r.
  have HB' : (0 < size B)%N by rewrite size_poly_gt0. have HQ' : (0 < size Q)%N by rewrite size_poly_gt0.
  rewrite size_mul // in H. case: (@eqP _ (size Q) i.+1) => [E|/eqP E].
  - have -> : Q`_i = lead_coef Q by rewrite /lead_coef E. rewrite -lead_coefM /lead_coef size_mul // E. congr (_`_ _). lia.
  - have Hi : (size Q <= i)%N by lia. rewrite [Q`_i]nth_default ?mul0r ?nth_default ?size_mul //; lia.
Qed.
Lemma Poly_rcons (l : seq R) x : Poly (rcons l x) = Poly l + x *: 'X^(size l).
Proof.
  apply/polyP => i. rewrite coefD coefZ coefXn !coef_Poly nth_rcons. case: ltngtP => H; rewrite ?mulr1 ?mulr0 ?addr0 //.
  - by rewrite nth_default // ltnW.
  - by rewrite nth_default ?H // add0r.
Qed.
Lemma quorem_loop_ok b i : forall a q, Poly b != 0 -> (size (Poly a) < i + size (Poly b))%N ->
  match @quorem_loop O div b (size (Poly b)) i a q with
  | Some (DivOk (q', r)) => exists q0, [/\ q' = q0 ++ q, size q0 = i, Poly a = Poly q0 * Poly b + Poly r & (size (Poly r) < size (Poly b))%N]
  | Some NotDivisible => forall Q (Rm : {poly R}), (size Rm < size (Poly b))%N -> Poly a <> Q * Poly b + Rm
  | _ => False
  end.
Proof.
  elim: i => [|i IH] a q HB Hs; cbn [quorem_loop].
  - exists [::]. by rewrite /= mul0r add0r.
  - have n0 : (0 < size (Poly b))%N by rewrite size_poly_gt0.
    have -> : @p_coeff O a ((i + size (Poly b))%coq_nat - 1)%coq_nat = (Poly a)`_(i + (size (Poly b)).-1) by rewrite p_coeffE; congr (_`_ _); lia.
    have -> : @p_coeff O b (size (Poly b) - 1)%coq_nat = lead_coef (Poly b) by rewrite p_coeffE minusE subn1.
    have := divP (Poly a)`_(i + (size (Poly b)).-1) (lead_coef (Poly b)).
    case: div => [qc||].
    + move=> [E _]. set a' := p_add _ _. have Ea' : Poly a' = Poly a - qc *: Poly b * 'X^i.
      { by rewrite /a' p_addE Poly_polyseq p_negE p_mul_var_powE p_mul_scalarE Poly_polyseq. }
      have Hs' : (size (Poly a') < i + size (Poly b))%N.
      { rewrite -(prednK n0) addnS ltnS. apply: size_lt_coef.
        - rewrite Ea'. apply: leq_trans (size_add _ _) _. rewrite geq_max size_opp. apply/andP; split.
          + by rewrite -addnS prednK // -ltnS -addSn.
          + apply: leq_trans (size_mul_leq _ _) _. rewrite size_polyXn addnS /= -addnS prednK // addnC leq_add2l. exact: size_scale_leq.
        - rewrite Ea' coefB E coefMXn ltnNge leq_addr /= addKn coefZ subrr //. }
      have := IH a' (qc :: q) HB Hs'. case: quorem_loop => [[[q' r]||]|] //.
      * case=> q0 [H1 H2 H3 H4]. exists (rcons q0 qc). split=> //.
        -- by rewrite cat_rcons.
        -- by rewrite size_rcons H2.
        -- rewrite Poly_rcons H2 mulrDl addrAC -H3 Ea' -scalerAl -scalerAl [_ * Poly b]mulrC subrK //.
      * move=> H Q Rm HR EA. apply: (H (Q - qc *: 'X^i) Rm HR). rewrite Ea' EA mulrBl -!scalerAl ['X^i * _]mulrC. by rewrite addrAC.
    + move/eqP. by rewrite lead_coef_eq0 (negbTE HB).
    + move=> [_ H] Q Rm HR EA. apply: (H Q`_i). rewrite EA coefD. 
      rewrite [Rm`__]nth_default; last by apply: leq_trans (leq_addl _ _); rewrite -ltnS prednK.
      rewrite addr0 coef_top //. have -> : Q * Poly b = Poly a - Rm by rewrite EA addrK.
      apply: leq_trans (size_add _ _) _. rewrite geq_max size_opp -ltnS -addSn Hs /=. apply: leq_trans (leq_addl _ _). exact: ltnW.
Qed.
(* try_quorem: division with remainder, complete: it fails only if no quotient and remainder exist *)
Lemma try_quorem_ok a b :
  match @try_quorem O div a b with
  | Some DivideByZero => Poly b = 0
  | Some (DivOk (q, r)) => [/\ Poly b != 0, Poly a = Poly q * Poly b + Poly r & (size (Poly r) < size (Poly b))%N]
  | Some NotDivisible => Poly b != 0 /\ forall Q (Rm : {poly R}), (size Rm < size (Poly b))%N -> Poly a <> Q * Poly b + Rm
  | None => False
  end.
Proof.
  rewrite /try_quorem !p_num_coeffsE eqb_nat size_poly_eq0. case: (@eqP _ (Poly b) 0) => // /eqP HB.
  rewrite ltb_nat. case: ltnP => Hs; first by split=> //; rewrite /= mul0r add0r.
  have H : (size (Poly a) < size (Poly a) - size (Poly b) + 1 + size (Poly b))%N by rewrite addn1 addSn subnK.
  have := @quorem_loop_ok b _ a [::] HB H. rewrite minusE plusE. case: quorem_loop => [[[q r]||]|] //.
  case=> q0 [-> _ H1 H2]. by rewrite cats0.
Qed.
Lemma quorem_uniq A B Q Q' (Rm Rm' : {poly R}) : A = Q * B + Rm -> A = Q' * B + Rm' -> (size Rm < size B)%N -> (size Rm' < size B)%N -> Q = Q' /\ Rm = Rm'.
Proof.
  move=> E1 E2 H1 H2. have E : (Q - Q') * B = Rm' - Rm.
  { apply/eqP. rewrite mulrBl subr_eq addrAC eq_sym subr_eq -E1 [Rm' + _]addrC -E2 //. }
  case: (@eqP _ Q Q') => [EQ|/eqP HQ].
  - split=> //. move: E. rewrite EQ subrr mul0r => /esym/eqP. by rewrite subr_eq0 => /eqP ->.
  - have HB : B != 0 by rewrite -size_poly_gt0; apply: leq_ltn_trans H1.
    have : (size (Rm' - Rm)%R < size B)%N by apply: leq_ltn_trans (size_add _ _) _; rewrite size_opp gtn_max H1 H2.
    rewrite -E size_mul ?subr_eq0 //. have : (0 < size (Q - Q')%R)%N by rewrite size_poly_gt0 subr_eq0. lia.
Qed.
Lemma p_div_ok a b :
  match @p_div O div a b with
  | Some DivideByZero => Poly b = 0
  | Some (DivOk q) => Poly b != 0 /\ Poly a = Poly q * Poly b
  | Some NotDivisible => Poly b != 0 /\ forall Q, Poly a <> Q * Poly b
  | None => False
  end.
Proof.
  rewrite /p_div. have := try_quorem_ok a b. case: try_quorem => [[[q r]||]|] //=.
  - case=> H1 H2 H3. have -> : @p_equal O (p_add (p_mul q b) r) a.
    { by rewrite p_equalE p_addE Poly_polyseq p_mulE Poly_polyseq H2. }
    rewrite p_is_zeroE. case: eqP => [E|E]; first by rewrite H2 E addr0.
    split=> // Q EQ. case: (@quorem_uniq (Poly a) (Poly b) (Poly q) Q (Poly r) 0) => //.
    + by rewrite addr0.
    + by rewrite size_poly0 size_poly_gt0.
  - case=> H1 H2. split=> // Q EQ. apply: (H2 Q 0); by rewrite ?addr0 // size_poly0 size_poly_gt0.
Qed.
End D.
