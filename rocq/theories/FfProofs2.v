(* Monic and squarefree factorisation over a finite field: the model of FfModel against {poly F}. *)
From Coq Require Import List Arith NArith Bool.
From mathcomp Require Import all_ssreflect all_fingroup all_algebra all_solvable all_field separable.
From mathcomp Require Import zify.
From Coq Require Import Lia.
From Verif Require Import RingSpec RingModel RingProofs FactoredSpec FactoredModel FactoredProofs PermModel MatModel MatSpec LatModel PolyModel PolyProofs PolyProofs2 PolyProofs3 PolyProofs11 PolyProofs12 FacModel FacProofs FacProofs2 FfModel FfProofs.
Close Scope rs_scope.
Set Implicit Arguments.
Unset Strict Implicit.
Unset Printing Implicit Defensive.
Import GRing.Theory.
Local Open Scope ring_scope.

Section S.
Variable R : idomainType.
Notation O := (mc_ops R).
Notation P := (poly_ops O).
Variable div : div_op O.
Hypothesis D : idom_laws O div.
Hypothesis FD : forall x y : R, y != 0 -> exists q, div x y = DivOk q.
Variable ffa : ffa_op O.
Hypothesis FA : ffa_laws O ffa.
Implicit Types (f g a b c w : seq R) (A B Q : {poly R}).

Lemma ffa1 (x : R) : x != 0 -> (ffa x).1 = x.
Proof. move=> H. have S : (ffa x).2 = 1 by apply/eqP; apply: (ffa_of_unit _ _ FA); apply/runitE; exact: (field_unit D FD). by rewrite {2}(ffaE FA x).1 S mulr1. Qed.
Lemma p_as_constantE f : @p_as_constant O f = (if (size (Poly f) <= 1)%N then Some ((Poly f)`_0) else None).
Proof.
  rewrite /p_as_constant p_num_coeffsE. case E: (size (Poly f)) => [|[|n]] //=.
  - have -> : Poly f = 0 by apply/eqP; rewrite -size_poly_eq0 E. by rewrite coef0.
  - rewrite coef_Poly. case: f E => [|x f] //=. by rewrite polyseq0.
Qed.
Lemma pffa_field f : Poly f != 0 -> exists f', @p_factor_fav_assoc O div ffa f = Some ([:: lead_coef (Poly f)], f') /\ Poly f' = (lead_coef (Poly f))^-1 *: Poly f.
Proof.
  move=> H. have [f' [E1 E2]] := pffa_total D FA f. rewrite (negPf H) ffa1 ?lead_coef_eq0 // in E1 E2. exists f'. split=> //.
  by rewrite {2}E2 mul_polyC scalerA mulVr ?(field_unit D FD) ?lead_coef_eq0 // scale1r.
Qed.
Lemma monicize A : A != 0 -> (lead_coef A)^-1 *: A \is monic.
Proof. move=> H. by rewrite monicE lead_coefZ mulVr // (field_unit D FD) // lead_coef_eq0. Qed.
Lemma factorize_monic_ok f : @factorize_monic O div ffa f = Some (if Poly f == 0 then None else
  Some (@MonicFactored O (lead_coef (Poly f)) (if @p_factor_fav_assoc O div ffa f is Some (_, f') then f' else [::]))).
Proof.
  rewrite /factorize_monic p_is_zeroE. case: eqP => // /eqP H. have [f' [-> _]] := pffa_field H. cbn [obind fst snd]. rewrite p_as_constantE Poly1 size_polyC lead_coef_eq0 H /=. cbn [obind]. by rewrite coefC eqxx.
Qed.
Lemma monic_unwrap_ok f : Poly f != 0 -> exists m, [/\ @monic_unwrap O div ffa f = Some m, Poly m \is monic & Poly m %= Poly f].
Proof.
  move=> H. rewrite /monic_unwrap factorize_monic_ok (negPf H). have [f' [-> E]] := pffa_field H. exists f'. split=> //; rewrite E; first exact: monicize. apply: eqp_scale. by rewrite invr_eq0 lead_coef_eq0.
Qed.
Lemma dvdE A B : A %| B -> exists Q, B = Q * A.
Proof.
  case/Pdiv.Idomain.dvdpP => [[c Q] /= Hc E]. have U : c \is a GRing.unit by exact: (field_unit D FD). exists (c^-1 *: Q). by rewrite -scalerAl -E scalerA mulVr // scale1r.
Qed.
Lemma pgcd_ok a b : exists g, [/\ @pgcd O div ffa a b = Some g, Poly g %= gcdp (Poly a) (Poly b) & (Poly a != 0) || (Poly b != 0) -> Poly g \is monic].
Proof.
  have PD := poly_idom D. have PF := poly_ffa D FA. have PE := poly_euclid D FD.
  have Hf : (nrm P (@p_norm O) b < length b + 2)%coq_nat. { rewrite /nrm p_normE lengthE. have := size_Poly b. case: eqP => [_|_] /=; [lia|]. rewrite Nat2N.id. set x := size _. set y := size b. lia. }
  have [g [E1 [[A /p_equalP E2] [[B /p_equalP E3] E4]]]] : exists g : seq R, @euclidean_gcd P (pffa div ffa) (pquorem div) (length b + 2)%coq_nat a b = Some (snd (pffa div ffa g)) /\ @is_gcd P g a b := @euclidean_gcd_ok P (poly_ring R) (pffa div ffa) (@p_norm O) (pquorem div) PE _ a b Hf.
  have [g' [Eg Eg']] := pffaE D FA g. exists (snd (pffa div ffa g)).
  have Eq : Poly (snd (pffa div ffa g) : seq R) %= Poly g. { rewrite Eg. case: eqP => [Z|/eqP Z] /=; first by rewrite Z polyC0 eqpxx. rewrite Eg' ffa1 ?lead_coef_eq0 // mul_polyC eqp_sym. apply: eqp_scale. by rewrite lead_coef_eq0. }
  split; first exact: E1.
  - apply: eqp_trans Eq _. rewrite /eqp dvdp_gcd. cbn [rmul poly_ops] in E2, E3. rewrite p_mulE Poly_polyseq in E2. rewrite p_mulE Poly_polyseq in E3. rewrite E2 E3 !dvdp_mulr //=.
    have [|| G /p_equalP E5] := E4 (polyseq (gcdp (Poly a) (Poly b))).
    + have [q Eq'] := dvdE (dvdp_gcdl (Poly a) (Poly b)). exists (polyseq q). apply/p_equalP. cbn [rmul poly_ops]. by rewrite p_mulE !polyseqK mulrC.
    + have [q Eq'] := dvdE (dvdp_gcdr (Poly a) (Poly b)). exists (polyseq q). apply/p_equalP. cbn [rmul poly_ops]. by rewrite p_mulE !polyseqK mulrC.
    + cbn [rmul poly_ops] in E5. rewrite p_mulE !polyseqK in E5. by rewrite -E2 -E3 E5 dvdp_mulr.
  - move=> H. have Z : Poly g != 0. { apply/eqP => Z. cbn [rmul poly_ops] in E2, E3. rewrite p_mulE Poly_polyseq Z mul0r in E2. rewrite p_mulE Poly_polyseq Z mul0r in E3. by move: H; rewrite E2 E3 eqxx. }
    rewrite Eg (negPf Z) /=. have := Eg'. rewrite ffa1 ?lead_coef_eq0 // => E. have -> : Poly g' = (lead_coef (Poly g))^-1 *: Poly g by rewrite {2}E mul_polyC scalerA mulVr ?(field_unit D FD) ?lead_coef_eq0 // scale1r. exact: monicize.
Qed.
End S.
