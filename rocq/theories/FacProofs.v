(* Squarefree decompositions over a domain of characteristic 0, and the quantities of Yun's algorithm. *)
From Coq Require Import List Arith NArith Bool.
From mathcomp Require Import all_ssreflect all_algebra separable.
From mathcomp Require Import zify.
From Coq Require Import Lia.
From Verif Require Import RingSpec RingModel PermModel MatModel MatSpec PolyModel PolyProofs PolyProofs10 PolyProofs11 PolyProofs12.
Close Scope rs_scope.
Set Implicit Arguments.
Unset Strict Implicit.
Unset Printing Implicit Defensive.
Import GRing.Theory.
Local Open Scope ring_scope.

Section Y.
Variable R : idomainType.
Implicit Types (p q a b c d f : {poly R}) (L : seq ({poly R} * nat)) (w : nat -> nat).
(* product of the p, weighted "logarithmic derivative" numerator, product of the p^e *)
Fixpoint Pi L : {poly R} := if L is x :: L' then x.1 * Pi L' else 1.
Fixpoint W w L : {poly R} := if L is x :: L' then (x.1^`() * Pi L') *+ w x.2 + x.1 * W w L' else 0.
Fixpoint Fp L : {poly R} := if L is x :: L' then x.1 ^+ x.2 * Fp L' else 1.
Fixpoint Gp L : {poly R} := if L is x :: L' then x.1 ^+ x.2.-1 * Gp L' else 1.
(* pairwise coprime, squarefree, nonconstant *)
Fixpoint good L : Prop := if L is x :: L' then [/\ (1 < size x.1)%N, coprimep x.1 x.1^`(), coprimep x.1 (Pi L'), (0 < x.2)%N & good L'] else True.
Notation from i L := [seq x <- L | (i <= x.2)%N].
Notation at_ i L := [seq x <- L | x.2 == i].

Lemma dPi L : (Pi L)^`() = W (fun _ => 1%N) L.
Proof. elim: L => [|[p e] L IH] /=; first by rewrite derivC. by rewrite derivM IH mulr1n. Qed.
Lemma W_ext w w' L : (forall x, x \in L -> w x.2 = w' x.2) -> W w L = W w' L.
Proof. elim: L => [|[p e] L IH] //= H. rewrite IH; last by move=> x Hx; apply: H; rewrite inE Hx orbT. by rewrite (H _ (mem_head _ _)). Qed.
Lemma W_add w w' L : W (fun e => w e + w' e)%N L = W w L + W w' L.
Proof. elim: L => [|[p e] L IH] //=; first by rewrite addr0. rewrite IH mulrnDr mulrDr. by rewrite addrACA. Qed.
Lemma coprime_PW w L : (forall n, (n.+1)%:R != 0 :> R) -> good L -> (forall x, x \in L -> (0 < w x.2)%N) -> coprimep (Pi L) (W w L).
Proof.
  move=> C0. elim: L => [|[p e] L IH] /=; first by rewrite coprime1p. case=> H1 H2 H3 He H4 Hw.
  have Hwe : (0 < w e)%N by exact: (Hw (p, e) (mem_head _ _)).
  rewrite coprimepMl. apply/andP; split.
  - rewrite addrC mulrC coprimep_addl_mul. case: (w e) Hwe => // n _. rewrite -scaler_nat coprimepZr //. by rewrite coprimepMr H2 H3.
  - have -> : (p^`() * Pi L) *+ w e = (p^`() *+ w e) * Pi L by rewrite mulrnAl. rewrite coprimep_addl_mul coprimepMr coprimep_sym H3 /=. apply: IH => // x Hx. apply: Hw. by rewrite inE Hx orbT.
Qed.
Lemma good_filter P L : good L -> good (filter P L).
Proof.
  elim: L => [|[p e] L IH] //=. case=> H1 H2 H3 He H4. case: (P _) => /=; last exact: IH. split=> //; last exact: IH.
  move: H3 {IH H4}. elim: L => [|[q e'] L IH] //=. rewrite coprimepMr => /andP[K1 K2]. case: (P _) => /=; last exact: IH. by rewrite coprimepMr K1 IH.
Qed.
Lemma split_Pi i L : Pi (from i L) = Pi (at_ i L) * Pi (from i.+1 L).
Proof. elim: L => [|[p e] L IH] /=; first by rewrite mulr1. case: ltngtP => H /=; rewrite IH //=; last by rewrite mulrA. by rewrite mulrCA. Qed.
Lemma split_Fp i L : Fp (from i L) = Pi (at_ i L) ^+ i * Fp (from i.+1 L).
Proof. elim: L => [|[p e] L IH] /=; first by rewrite expr1n mulr1. case: ltngtP => H /=; rewrite IH //=; first by rewrite mulrCA. by rewrite H exprMn mulrA. Qed.
Lemma split_W i L : W (fun e => e - i)%N (from i L) = Pi (at_ i L) * W (fun e => e - i)%N (from i.+1 L).
Proof.
  elim: L => [|[p e] L IH] /=; first by rewrite mulr0. case: ltngtP => H /=; rewrite IH //=; last by rewrite H subnn mulr0n add0r mulrA.
  by rewrite split_Pi mulrDr mulrnAr [p * _]mulrCA [_^`() * _]mulrCA.
Qed.
Lemma from1 L : good L -> from 1 L = L.
Proof. elim: L => [|[p e] L IH] //= [_ _ _ -> H]. by rewrite IH. Qed.
Lemma from_top i L : (forall x, x \in L -> (x.2 < i)%N) -> from i L = [::].
Proof. move=> H. apply/eqP. rewrite -[_ == _]negbK -has_filter. apply/hasPn => x /H. by rewrite -ltnNge. Qed.
Lemma Gp_Pi L : good L -> Fp L = Gp L * Pi L.
Proof. elim: L => [|[p e] L IH] /=; first by rewrite mulr1. case=> _ _ _ He /IH ->. rewrite -[in LHS](prednK He) exprSr -!mulrA. congr (_ * _). by rewrite mulrCA. Qed.
Lemma dFp L : good L -> (Fp L)^`() = Gp L * W id L.
Proof.
  elim: L => [|[p e] L IH] /=; first by rewrite derivC mulr0. case=> _ _ _ He HL. rewrite derivM IH // deriv_exp /= Gp_Pi //.
  case: e He => // e _ /=. rewrite exprS mulrDr mulrnAr !mulrnAl. congr (_ *+ _ + _).
  - rewrite -!mulrA mulrCA. congr (_ * _). by rewrite mulrCA.
  - by rewrite -!mulrA mulrCA; congr (_ * _); rewrite mulrCA.
Qed.
Lemma good_neq0 L : good L -> Pi L != 0.
Proof. elim: L => [|[p e] L IH] /=; first by rewrite oner_eq0. case=> H _ _ _ HL. rewrite mulf_neq0 ?IH // -size_poly_gt0. exact: ltn_trans H. Qed.
Lemma Fp_neq0 L : good L -> Fp L != 0.
Proof. elim: L => [|[p e] L IH] /=; first by rewrite oner_eq0. case=> H _ _ _ HL. rewrite mulf_neq0 ?IH // expf_neq0 // -size_poly_gt0. exact: ltn_trans H. Qed.
Lemma good_exp L x : good L -> x \in L -> (x.2 < size (Fp L))%N.
Proof.
  elim: L => [|[p e] L IH] //= [H _ _ He HL]. rewrite inE. have Hp : p != 0 by rewrite -size_poly_gt0; exact: ltn_trans H.
  have E := size_mul (expf_neq0 e Hp) (Fp_neq0 HL). have H1 : (0 < size (Fp L))%N by rewrite size_poly_gt0 Fp_neq0.
  have H2 := size_exp p e. have H3 : (0 < size (p ^+ e))%N by rewrite size_poly_gt0 expf_neq0.
  case/orP=> [/eqP ->|Hx].
  - rewrite E /=. move: H H1 H2 H3. set s := size p. set t := size (Fp L). set u := size (p ^+ e). clearbody s t u. nia.
  - apply: leq_trans (IH HL Hx) _. rewrite E. move: H3. set t := size (Fp L). set u := size (p ^+ e). clearbody t u. lia.
Qed.
Lemma Pi_at_sqfree i L : good L -> coprimep (Pi (at_ i L)) (Pi (at_ i L))^`().
Proof.
  move=> H. move: (good_filter (fun x => x.2 == i) H). elim: {L H} (at_ i L) => [|[p e] L IH] /=; first by rewrite coprime1p.
  case=> H1 H2 H3 He HL. rewrite derivM coprimepMl. apply/andP; split.
  - by rewrite addrC mulrC coprimep_addl_mul coprimepMr H2 H3.
  - by rewrite coprimep_addl_mul coprimepMr coprimep_sym H3 IH.
Qed.

(* existence *)
Hypothesis C0 : forall n, (n.+1)%:R != 0 :> R.
Lemma sq_dvd_of p b f : (forall u, u %| f -> coprimep u b -> (size u <= 1)%N) -> f != 0 -> p %| f -> coprimep p p^`() -> p %| b.
Proof.
  move=> Hr Hf Hp Hs. have Hp0 : p != 0 by apply/eqP => Z; move: Hp; rewrite Z dvd0p (negPf Hf).
  have /Pdiv.Idomain.dvdpP [[s r] /= Hs0 E] := dvdp_gcdl p b. set g := gcdp p b in E.
  have Hrp : r %| p by rewrite -(dvdpZr _ _ Hs0) E dvdp_mulr.
  have Hc : coprimep r g.
  { have /separable_polyP [H _] : separable_poly p by []. apply: H. by rewrite -E -(dvdpZr _ _ Hs0). }
  have Hrb : coprimep r b.
  { apply/coprimepP => d Hd1 Hd2. have Hdg : d %| g by rewrite dvdp_gcd (dvdp_trans Hd1 Hrp). by move/coprimepP: Hc => /(_ d Hd1 Hdg). }
  have := Hr r (dvdp_trans Hrp Hp) Hrb => /size1_polyC Er.
  have Hpg : p %| g. { rewrite -(dvdpZl _ _ Hs0) E Er mul_polyC dvdpZl //. apply/eqP => Z. move: E. rewrite Er Z polyC0 mul0r => /eqP. by rewrite scale_poly_eq0 (negPf Hs0) (negPf Hp0). }
  exact: dvdp_trans Hpg (dvdp_gcdr _ _).
Qed.
Lemma dvd_Pi L b : good L -> (forall x, x \in L -> x.1 %| b) -> Pi L %| b.
Proof.
  elim: L => [|[p e] L IH] /=; first by rewrite dvd1p. case=> _ _ H3 _ HL H. rewrite Gauss_dvdp // (H _ (mem_head _ _)) IH // => x Hx. apply: H. by rewrite inE Hx orbT.
Qed.
Lemma mem_dvd L x : x \in L -> x.1 %| Pi L.
Proof. elim: L => [|y L IH] //=. rewrite inE => /orP[/eqP ->|/IH H]; first exact: dvdp_mulr. exact: dvdp_mull. Qed.
Lemma good_sep L x : good L -> x \in L -> coprimep x.1 x.1^`().
Proof. elim: L => [|y L IH] //= [_ H _ _ HL]. rewrite inE => /orP[/eqP ->|/IH H'] //. exact: H'. Qed.
Lemma Pi_dvd_Fp L : good L -> Pi L %| Fp L.
Proof. move=> H. rewrite (Gp_Pi H). exact: dvdp_mull. Qed.
Lemma good_S L : good L -> good [seq (x.1, x.2.+1) | x <- L] /\ Pi [seq (x.1, x.2.+1) | x <- L] = Pi L /\ Fp [seq (x.1, x.2.+1) | x <- L] = Pi L * Fp L.
Proof.
  elim: L => [|[p e] L IH] /=; first by rewrite mulr1. case=> H1 H2 H3 He /IH [HL [E1 E2]]. rewrite E1 E2. split=> //. split=> //. rewrite exprS !mulrA. congr (_ * _). by rewrite -!mulrA [_ ^+ _ * _]mulrC.
Qed.
Lemma sqfree_decomp n : forall f, f != 0 -> (size f <= n.+1)%N -> exists L, good L /\ f %= Fp L.
Proof.
  elim: n => [|n IH] f Hf Hn.
  { exists [::]. split=> //=. rewrite -[_ %= _]/(f %= 1) -size_poly_eq1 eqn_leq Hn size_poly_gt0. done. }
  case: (ltnP (size f) 2) => [Hs|Hs]. { apply: IH => //. lia. }
  set g := gcdp f f^`(). have Hg0 : g != 0 by rewrite gcdp_eq0 (negPf Hf).
  have /Pdiv.Idomain.dvdpP [[s b] /= Hs0 E] := dvdp_gcdl f f^`(). rewrite -/g in E.
  have Hb0 : b != 0 by apply/eqP => Z; move/eqP: E; rewrite Z mul0r scale_poly_eq0 (negPf Hs0) (negPf Hf).
  have Hfe : f %= b * g by rewrite -E eqp_sym eqp_scale.
  have Hsg : (size g <= n.+1)%N.
  { have Hf' : f^`() != 0. { case Ef: (size f) Hs => [|[|k]] // _. by rewrite -size_poly_gt0 (size_deriv0 (C0 k) Ef). }
    have := dvdp_leq Hf' (dvdp_gcdr f f^`()). rewrite -/g. have := lt_size_deriv Hf. set x := size g. set y := size f^`(). set z := size f in Hn *. lia. }
  have [L [HL EL]] := IH g Hg0 Hsg. have Hbs : separable_poly b.
  { have := make_separable Hf. rewrite (@eqp_separable _ _ b) // -(eqp_mul2r _ _ Hg0) Pdiv.Idomain.divpK ?dvdp_gcdl //. apply: eqp_trans (_ : f %= _); first by rewrite eqp_scale // expf_neq0 // lead_coef_eq0. done. }
  have Hrad := radical C0 Hf Hfe (eqpxx g).
  have HPb : Pi L %| b.
  { apply: (dvd_Pi HL) => x Hx. apply: (sq_dvd_of Hrad) => //; last exact: good_sep HL Hx.
    rewrite (eqp_dvdr _ Hfe). apply: dvdp_mull. rewrite (eqp_dvdr _ EL). exact: dvdp_trans (mem_dvd Hx) (Pi_dvd_Fp HL). }
  have /Pdiv.Idomain.dvdpP [[t q] /= Ht0 Eq] := HPb.
  have Hbq : b %= q * Pi L by rewrite -Eq eqp_sym eqp_scale.
  have [HL' [EP EF]] := good_S HL.
  have Hfq : f %= q * (Pi L * Fp L). { apply: eqp_trans Hfe _. rewrite mulrA. apply: eqp_trans (eqp_mulr _ Hbq) _. exact: eqp_mull. }
  have Hcq : coprimep q (Pi L). { have /separable_polyP [H _] := Hbs. apply: H. by rewrite (eqp_dvdr _ Hbq). }
  have Hq0 : q != 0 by apply/eqP => Z; move: Hfq; rewrite Z mul0r eqp0 (negPf Hf).
  case: (leqP (size q) 1) => Hq.
  - exists [seq (x.1, x.2.+1) | x <- L]. split=> //. rewrite EF. apply: eqp_trans Hfq _. rewrite (size1_polyC Hq) mul_polyC. apply: eqp_scale. apply/eqP => Z. move: Hq0. by rewrite (size1_polyC Hq) Z polyC0 eqxx.
  - exists ((q, 1%N) :: [seq (x.1, x.2.+1) | x <- L]). split=> /=; last by rewrite EF expr1.
    split=> //; last by rewrite EP. have : separable_poly q by apply: dvdp_separable Hbs; rewrite (eqp_dvdr _ Hbq) dvdp_mulr. done.
Qed.
End Y.
