(* The polynomial ring over an integral domain satisfies the contracts of the ring traits; over a field it is Euclidean *)
From Coq Require Import List Arith NArith Bool.
From mathcomp Require Import all_ssreflect all_algebra.
From mathcomp Require Import zify.
From Coq Require Import Lia.
From Verif Require Import RingSpec RingModel RingProofs PermModel MatModel MatSpec MatProofs MatProofs2 PolyModel PolyProofs PolyProofs2.
Close Scope rs_scope.
Set Implicit Arguments.
Unset Strict Implicit.
Unset Printing Implicit Defensive.
Import GRing.Theory.
Local Open Scope ring_scope.

Section C.
Variable R : comRingType.
Notation O := (mc_ops R).
Notation P := (poly_ops O).
Lemma poly_ring : ring_laws P.
Proof.
  split; cbn [req radd rmul rneg r0 r1 T poly_ops].
  - move=> a. by apply/p_equalP.
  - move=> a b /p_equalP E. by apply/p_equalP.
  - move=> a b c /p_equalP E1 /p_equalP E2. apply/p_equalP. by rewrite E1.
  - move=> a a' b b' /p_equalP E1 /p_equalP E2. apply/p_equalP. by rewrite !p_addE E1 E2.
  - move=> a a' b b' /p_equalP E1 /p_equalP E2. apply/p_equalP. by rewrite !p_mulE E1 E2.
  - move=> a b /p_equalP E. apply/p_equalP. by rewrite !p_negE E.
  - move=> a. apply/p_equalP. by rewrite p_addE Poly_polyseq add0r.
  - move=> a b. apply/p_equalP. by rewrite !p_addE addrC.
  - move=> a b c. apply/p_equalP. by rewrite !p_addE !Poly_polyseq addrA.
  - move=> a. apply/p_equalP. by rewrite p_addE Poly_polyseq p_negE subrr.
  - move=> a. apply/p_equalP. by rewrite p_mulE Poly_polyseq [X in X * _]cons_poly_def mul0r add0r mul1r.
  - move=> a b. apply/p_equalP. by rewrite !p_mulE mulrC.
  - move=> a b c. apply/p_equalP. by rewrite !p_mulE !Poly_polyseq mulrA.
  - move=> a b c. apply/p_equalP. by rewrite !p_addE !p_mulE !Poly_polyseq mulrDl.
Qed.
Lemma Poly1 (x : R) : Poly [:: x] = x%:P. Proof. by rewrite /= cons_poly_def mul0r add0r. Qed.
End C.

Lemma ltN_of (m n : nat) : (0 < m)%N -> (m < n)%N -> N.lt (N.of_nat m.-1) (N.of_nat n.-1). Proof. lia. Qed.
Lemma leN_of (m n : nat) : (0 < n)%N -> N.le (N.of_nat m.-1) (N.of_nat (m + n).-1.-1). Proof. lia. Qed.
Section D.
Variable R : idomainType.
Notation O := (mc_ops R).
Notation P := (poly_ops O).
Variable div : div_op O.
Hypothesis D : idom_laws O div.
(* the total functions: p_div never panics, so that the default case is not used *)
Definition pdiv : div_op P := fun a b => match @p_div O div a b with Some d => d | None => NotDivisible end.
Lemma p_div_total a b : @p_div O div a b = Some (pdiv a b).
Proof. have := p_div_ok D a b. rewrite /pdiv. by case: p_div. Qed.
Lemma pdivP a b : match pdiv a b with
  | DivideByZero => Poly b = 0
  | DivOk q => Poly b != 0 /\ Poly a = Poly q * Poly b
  | NotDivisible => Poly b != 0 /\ forall Q, Poly a <> Q * Poly b end.
Proof. have := p_div_ok D a b. by rewrite p_div_total. Qed.
Lemma poly_idom : idom_laws P pdiv.
Proof.
  split.
  - exact: poly_ring.
  - apply/p_equalP => /=. rewrite cons_poly_def mul0r add0r => /eqP. by rewrite polyC_eq0 oner_eq0.
  - move=> a b /p_equalP. rewrite /= p_mulE Poly_polyseq => /eqP. rewrite mulf_eq0 => /orP[] H; [left|right]; apply/p_equalP; exact/eqP.
  - move=> a b. have := pdivP a b. split.
    + move=> E. move: H. rewrite E => H. exact/p_equalP.
    + move/p_equalP => E. move: H. case: pdiv => [q||] //= [/eqP].
      * by rewrite E.
      * by rewrite E.
  - move=> a b q E. have := pdivP a b. rewrite E => -[_ H]. apply/p_equalP. by rewrite /= p_mulE Poly_polyseq.
  - move=> a b E [c /p_equalP /= Hc]. have := pdivP a b. rewrite E => -[_ H]. apply: (H (Poly c)). by rewrite Hc p_mulE Poly_polyseq mulrC.
Qed.
Lemma runitE (x : R) : @runit O x <-> x \is a GRing.unit.
Proof.
  split.
  - case=> c /= /eqP H. apply/unitrP. exists c. by rewrite mulrC.
  - move=> H. exists x^-1. apply/eqP. exact: divrr.
Qed.
Lemma punitE (a : seq R) : @runit P a <-> exists2 u, u \is a GRing.unit & Poly a = u%:P.
Proof.
  split.
  - case=> c /p_equalP. rewrite /= p_mulE Poly_polyseq cons_poly_def mul0r add0r => H.
    have : Poly a \is a GRing.unit by apply/unitrP; exists (Poly c); rewrite mulrC.
    rewrite poly_unitE => /andP[/eqP S U]. exists (Poly a)`_0 => //. apply: size1_polyC. by rewrite S.
  - case=> u U E. exists [:: u^-1]. apply/p_equalP. cbn [rmul r1 poly_ops]. by rewrite p_mulE Poly_polyseq E !Poly1 -polyCM divrr.
Qed.
Section Ffa.
Variable ffa : ffa_op O.
Hypothesis F : ffa_laws O ffa.
Definition pffa : ffa_op P := fun a => match @p_factor_fav_assoc O div ffa a with Some d => d | None => ([::], [::]) end.
Lemma mapM_div (u : R) l : u \is a GRing.unit -> exists l', mapM (fun c => match div c u with DivOk q => Some q | _ => None end) l = Some l' /\ l = map (fun c => c * u) l'.
Proof.
  move=> U. elim: l => [|c l [l' [E1 E2]]]; first by exists [::]. cbn [mapM]. have := divP D c u. case: div => [q||].
  - case=> E _. exists (q :: l'). cbn [obind]. by rewrite E1 /= -E2 E.
  - move=> Z. by move: U; rewrite Z unitr0.
  - case=> _ /(_ (c / u)). by rewrite divrK.
Qed.
Lemma Poly_mapM (u : R) l : Poly (map (fun c => c * u) l) = u%:P * Poly l.
Proof.
  apply/polyP => i. rewrite coefCM !coef_Poly. case: (ltnP i (size l)) => Hi.
  - by rewrite (nth_map 0) // mulrC.
  - by rewrite !nth_default ?size_map // mulr0.
Qed.
Lemma ffaE x : x = (ffa x).1 * (ffa x).2 /\ (ffa x).1 \is a GRing.unit.
Proof. split; first by have /= /eqP := ffa_eq O ffa F x. apply/runitE. exact: ffa_unit. Qed.
Lemma pffa_total (a : seq R) : exists a', @p_factor_fav_assoc O div ffa a = Some (if Poly a == 0 then ([:: 1], [::]) else ([:: (ffa (lead_coef (Poly a))).1], a')) /\
  Poly a = (ffa (lead_coef (Poly a))).1%:P * Poly a'.
Proof.
  rewrite /p_factor_fav_assoc p_is_zeroE. case: eqP => [E|/eqP E].
  - exists [::]. by rewrite E mulr0.
  - have -> : List.nth (@p_num_coeffs O a - 1)%coq_nat a (0:R) = lead_coef (Poly a) by rewrite nthE p_num_coeffsE /lead_coef coef_Poly minusE subn1.
    case: (ffaE (lead_coef (Poly a))) => _ U. case: (mapM_div a U) => a' [E1 E2]. exists a'. rewrite E1. split=> //.
    by rewrite {1}E2 Poly_mapM.
Qed.
Lemma pffaE (a : seq R) : exists a', pffa a = (if Poly a == 0 then ([:: 1], [::]) else ([:: (ffa (lead_coef (Poly a))).1], a')) /\
  Poly a = (ffa (lead_coef (Poly a))).1%:P * Poly a'.
Proof. case: (pffa_total a) => a' [E1 E2]. exists a'. split=> //. by rewrite /pffa E1. Qed.
Lemma poly_ffa : ffa_laws P pffa.
Proof.
  split.
  - move=> a. case: (pffaE a) => a' [-> E]. apply/p_equalP. cbn [rmul poly_ops]. rewrite p_mulE Poly_polyseq. case: eqP => [Z|_]; cbn [fst snd].
    + by rewrite Z mulr0.
    + by rewrite Poly1 -E.
  - move=> a. case: (pffaE a) => a' [-> E]. apply/punitE. case: eqP => [Z|_] /=.
    + exists 1; [exact: unitr1|exact: Poly1].
    + exists (ffa (lead_coef (Poly a))).1; [exact: (ffaE _).2|exact: Poly1].
  - move=> a b [u [/punitE [w W Ew] /p_equalP]]. rewrite /= p_mulE Poly_polyseq Ew => E.
    case: (pffaE a) => a' [-> E1]. case: (pffaE b) => b' [-> E2]. apply/p_equalP. have W0 : w != 0 by apply/eqP => Z; move: W; rewrite Z unitr0.
    have -> : (Poly a == 0) = (Poly b == 0) by rewrite E mulf_eq0 polyC_eq0 (negbTE W0).
    case: eqP => // /eqP B0 /=. apply: (@mulfI _ (ffa (lead_coef (Poly a))).1%:P).
    { rewrite polyC_eq0. apply/eqP => Z. have := (ffaE (lead_coef (Poly a))).2. by rewrite Z unitr0. }
    have L : lead_coef (Poly a) = w * lead_coef (Poly b) by rewrite E lead_coefM lead_coefC.
    rewrite -E1 {1}E {1}E2 mulrA -polyCM. congr (_%:P * _).
    have S : (ffa (lead_coef (Poly a))).2 = (ffa (lead_coef (Poly b))).2.
    { apply/eqP. apply: (ffa_assoc O ffa F). exists w. split; first exact/runitE. by apply/eqP. }
    have := (ffaE (lead_coef (Poly a))).1. rewrite {1}L {1}(ffaE (lead_coef (Poly b))).1 S mulrA. apply: mulIf.
    apply/eqP => Z. have := (ffaE (lead_coef (Poly b))).1. rewrite Z mulr0 => /eqP. by rewrite lead_coef_eq0 (negbTE B0).
  - move=> a /p_equalP /= E. case: (pffaE a) => a' [-> _]. rewrite E eqxx. by apply/p_equalP.
  - move=> a /punitE [w W Ew]. case: (pffaE a) => a' [-> E]. have W0 : w != 0 by apply/eqP => Z; move: W; rewrite Z unitr0.
    rewrite Ew polyC_eq0 (negbTE W0) /=. apply/p_equalP. rewrite Poly1. move: E. rewrite Ew lead_coefC => E.
    have S : (ffa w).2 = 1. { apply/eqP. apply: (ffa_of_unit O ffa F). exact/runitE. }
    have S' : (ffa w).1 = w by rewrite {2}(ffaE w).1 S mulr1. move: E. rewrite S' -{1}[w%:P]mulr1 => /mulfI H. have W1 : w%:P != 0 by rewrite polyC_eq0. by rewrite -(H W1).
Qed.
End Ffa.
(* fields *)
Section Field.
Hypothesis FD : forall x y, y != 0 -> exists q, div x y = DivOk q.
Definition pquorem (a b : seq R) : option (seq R * seq R) := match @p_quorem O div a b with Some o => o | None => None end.
Lemma field_unit (x : R) : x != 0 -> x \is a GRing.unit.
Proof. move=> H. case: (FD 1 H) => q E. have := divP D 1 x. rewrite E => -[E' _]. apply/unitrP. exists q. by rewrite [x * q]mulrC -E'. Qed.
Lemma p_quorem_ok a b : match @p_quorem O div a b with
  | Some None => Poly b = 0
  | Some (Some (q, r)) => [/\ Poly b != 0, Poly a = Poly q * Poly b + Poly r & (size (Poly r) < size (Poly b))%N]
  | None => False end.
Proof.
  have L : forall n i a q, @p_coeff O b (n - 1)%coq_nat != 0 -> @quorem_loop O div b n i a q <> Some NotDivisible.
  { move=> n. elim=> [|i IH] a' q H //=. case: (FD (@p_coeff O a' ((i + n)%coq_nat - 1)%coq_nat) H) => c ->. exact: IH. }
  rewrite /p_quorem. have := try_quorem_ok D a b. case E: try_quorem => [[[q r]||]|] //=. case=> B0 _.
  move: E. rewrite /try_quorem. case: Nat.eqb => //. case: Nat.ltb => // E. apply: L E.
  by rewrite p_coeffE p_num_coeffsE minusE subn1 lead_coef_eq0.
Qed.
Lemma pquoremP a b : match pquorem a b with
  | None => Poly b = 0
  | Some (q, r) => [/\ Poly b != 0, Poly a = Poly q * Poly b + Poly r & (size (Poly r) < size (Poly b))%N] end.
Proof. rewrite /pquorem. have := p_quorem_ok a b. by case: p_quorem => [[[q r]|]|]. Qed.
Lemma p_quorem_total a b : @p_quorem O div a b = Some (pquorem a b).
Proof. rewrite /pquorem. have := p_quorem_ok a b. by case: p_quorem. Qed.
Lemma p_normE (a : seq R) : @p_norm O a = (if Poly a == 0 then None else Some (N.of_nat (size (Poly a)).-1)).
Proof. rewrite /p_norm p_degreeE -size_poly_eq0. by case: (size _). Qed.
Lemma poly_euclid : euclid_laws P (@p_norm O) pquorem.
Proof.
  split.
  - move=> a. rewrite p_normE. split; first by case: eqP => // E _; apply/p_equalP. by move/p_equalP => /= ->; rewrite eqxx.
  - move=> a b. have := pquoremP a b. case: pquorem => [[q r]|] H; split=> //.
    + move/p_equalP => /= E. by case: H; rewrite E eqxx.
    + move=> _. exact/p_equalP.
  - move=> a b q r E. have := pquoremP a b. rewrite E => -[_ H _]. apply/p_equalP. by rewrite /= p_addE Poly_polyseq p_mulE Poly_polyseq.
  - move=> a b q r n k E. have := pquoremP a b. rewrite E => -[_ _ H]. rewrite !p_normE. case: eqP => // _ [<-]. case: eqP => // /eqP R0 [<-].
    apply: ltN_of H. by rewrite size_poly_gt0.
Qed.
Lemma poly_norm_mono : norm_mono P (@p_norm O).
Proof.
  move=> a b c n k /p_equalP. rewrite /= p_mulE Poly_polyseq => E. rewrite !p_normE. case: eqP => // /eqP A0 [<-]. case: eqP => // /eqP C0 [<-].
  rewrite E in C0 *. have B0 : Poly b != 0 by apply/eqP => Z; move: C0; rewrite Z mulr0 eqxx.
  rewrite size_mul //. apply: leN_of. by rewrite size_poly_gt0.
Qed.
End Field.
End D.
