(* factorize_by_kroneckers_method and factorize_by_trying_all_factors. *)
From Coq Require Import List Arith NArith Bool.
From mathcomp Require Import all_ssreflect all_algebra separable.
From mathcomp Require Import zify.
From Coq Require Import Lia.
From Verif Require Import RingSpec RingModel RingProofs FactoredSpec FactoredModel FactoredProofs PermModel MatModel MatSpec PolyModel PolyProofs PolyProofs2 PolyProofs3 PolyProofs11 PolyProofs12 PolyProps FacModel FacProofs FacProofs2 FacProofs3.
Close Scope rs_scope.
Set Implicit Arguments.
Unset Strict Implicit.
Unset Printing Implicit Defensive.
Import GRing.Theory.
Local Open Scope ring_scope.

Section K.
Variable R : idomainType.
Notation O := (mc_ops R).
Notation P := (poly_ops O).
Variable div : div_op O.
Hypothesis D : idom_laws O div.
Variable ffa : ffa_op O.
Hypothesis F : ffa_laws O ffa.
Notation pdv := (@pdivr O div).
Notation pfa := (@pffar O div ffa).
Let PD : idom_laws P pdv := poly_idom D.
Let PF : ffa_laws P pfa := poly_ffa D F.
Implicit Types (f g h a b : seq R) (A B Q H : {poly R}).
Notation ex := (fun f : factored P => Poly (@expand P f)).

Lemma nonunit_size f : prim (Poly f) -> ~ @runit P f -> (1 < size (Poly f))%N.
Proof. move=> Hf Hu. rewrite ltnNge. apply/negP => /(prim_const Hf) H. apply: Hu. exact/punitE. Qed.
(* the recursion of factorize_by_find_factor on primitive polynomials *)
Lemma fbff_prim (pf : seq R -> option (@find_factor_result P)) :
  (forall f, prim (Poly f) -> (1 < size (Poly f))%N -> exists r, pf f = Some r /\ match r with
    | FFComposite g h => [/\ Poly f = Poly g * Poly h, prim (Poly g), prim (Poly h), (1 < size (Poly g))%N & (1 < size (Poly h))%N]
    | FFIrreducible => @rprime P f end) ->
  forall f, prim (Poly f) -> exists r, [/\ @factorize_by_find_factor P pdv pfa (length f + 1)%coq_nat pf f = Some r, okf div ffa r & ex r = Poly f].
Proof.
  move=> H f Hf.
  have H1 : forall e, prim (Poly e) -> ~ eqv P e (@r0 P) -> ~ @runit P e -> exists r, pf e = Some r /\
    match r with FFIrreducible => @rprime P e | FFComposite g h => @req P e (@rmul P g h) = true /\ (size (Poly g) < size (Poly e))%coq_nat /\ (size (Poly h) < size (Poly e))%coq_nat /\ prim (Poly g) /\ prim (Poly h) end.
  { move=> e He Hz Hu. have He1 := nonunit_size He Hu. have [r [Er Hr]] := H e He He1. exists r. split=> //. case: r Hr {Er} => // g h [E1 E2 E3 E4 E5].
    have := size_mul (prim_neq0 E2) (prim_neq0 E3). rewrite -E1 => Es. split; first by apply/p_equalP; rewrite pmulE. move: E4 E5 Es. set x := size (Poly g). set y := size (Poly h). set z := size (Poly e). move=> H1 H2 H3. split; first by apply/ltP; lia. split=> //. by apply/ltP; lia. }
  have H2 : (size (Poly f) < (length f + 1)%coq_nat)%coq_nat by rewrite lengthE; apply/ltP; rewrite plusE addn1 ltnS; exact: size_Poly.
  have H3 : ~ eqv P f (@r0 P) by move/eqvE => E; have := prim_neq0 Hf; rewrite E eqxx.
  case: (@factorize_by_find_factor_ok P pdv pfa PD PF (fun e => prim (Poly e)) pf (fun e => size (Poly e)) H1 _ _ H2 Hf H3) => r [E1 [E2 [E3 [E4 E5]]]].
  exists r. split; [exact: E1|by split|]. exact/eqvE/E2.
Qed.

Section Kron.
Variable gcd : R -> R -> R.
Hypothesis G : gcd_laws O ffa gcd.
Hypothesis C0 : forall n, (n.+1)%:R != 0 :> R.
Variables (factor : R -> option (factored O)) (units : seq R) (elems : nat -> R).
Hypothesis FA : forall c : R, c != 0 -> exists cf, [/\ factor c = Some cf, okfR ffa cf & @expand O cf = c].
Hypothesis UN : forall u, List.In u units <-> u \is a GRing.unit.
Hypothesis EL : injective elems.
Lemma kron_method_ok f : Poly f != 0 -> exists r w, [/\ @factorize_by_kroneckers_method O div ffa gcd factor units elems (@gcd_by_primitive_subresultant O div gcd) f = Some (Some r), okf div ffa r, w \is a GRing.unit & ex r * w%:P = Poly f].
Proof.
  move=> Hf. rewrite /factorize_by_kroneckers_method p_is_zeroE (negPf Hf).
  have [||r [w [[E1 E2 E3 E4] _]]] := @yun_ok R div D ffa F gcd G C0 (@gcd_by_primitive_subresultant O div gcd) (fun f => @factorize_by_find_factor P pdv pfa (length f + 1)%coq_nat (@find_factor_kronecker O div factor units elems) f) factor _ _ FA f Hf.
  - exact: gcdps_PG.
  - move=> a Ha _. apply: fbff_prim => // g Hg Hg1. exact: (kronecker_ok D G FA UN EL Hg Hg1).
  - exists r, w. by rewrite E1.
Qed.
End Kron.

Section Try.
Hypothesis FU : forall x : R, x != 0 -> x \is a GRing.unit.
Variable units : seq R.
Hypothesis UN : forall u, List.In u units <-> u \is a GRing.unit.
Lemma field_prim A : A != 0 -> prim A.
Proof.
  move=> HA d Hd. have [H0|H0] := boolP (d == 0).
  - exfalso. move: HA. case/eqP. apply/polyP => i. have [q ->] := Hd i. by rewrite (eqP H0) mulr0 coef0.
  - exists d^-1. by rewrite mulVr // FU.
Qed.
Definition fgcd (x y : R) : R := if (x == 0) && (y == 0) then 0 else 1.
Lemma fgcd_ok : gcd_laws O ffa fgcd.
Proof.
  have unit_dv x y : x != 0 -> @rdvd O x y. { move=> Hx. apply/rdvdE. exists (y / x). by rewrite divrK // FU. }
  move=> x y. rewrite /fgcd. case: (@eqP _ x 0) => [->|/eqP Hx]; [case: (@eqP _ y 0) => [->|/eqP Hy]|]; cbn [andb].
  - split; last by have := ffa_eq _ _ F (0 : R) => /eqP /= E; have [_ U] := ffaE F (0 : R); apply/eqP; apply: (mulrI U); rewrite -E mulr0.
    split; last split=> //; apply/rdvdE; exact: dv_refl.
  - split; last by apply: (ffa_of_unit _ _ F); apply/runitE; exact: unitr1. split; last split; try by apply: unit_dv; rewrite oner_eq0.
    move=> d _ Hd. apply: unit_dv. apply/eqP => Z. move/rdvdE: Hd => [q E]. by move: Hy; rewrite E Z mulr0 eqxx.
  - split; last by apply: (ffa_of_unit _ _ F); apply/runitE; exact: unitr1. split; last split; try by apply: unit_dv; rewrite oner_eq0.
    move=> d Hd _. apply: unit_dv. apply/eqP => Z. move/rdvdE: Hd => [q E]. by move: Hx; rewrite E Z mulr0 eqxx.
Qed.
Lemma in_all c : List.In c (0 :: units).
Proof. case: (@eqP _ c 0) => [->|/eqP H]; [by left|right; apply/UN; exact: FU]. Qed.
Lemma in_cart_rep n (l : seq R) : List.In l (cartesian (List.repeat (0 :: units) n)) <-> size l = n.
Proof.
  elim: n l => [|n IH] l. { cbn [List.repeat cartesian]. split; [by case=> // <-|move/size0nil ->; by left]. }
  cbn [List.repeat]. rewrite in_cart. split; first by case=> x [c' [-> _ /IH /= ->]]. case: l => // x l [/IH H]. exists x, l. split=> //. exact: in_all.
Qed.
Lemma try_monics_ok f d cands k : (forall c, List.In c cands -> size c = d) ->
  @try_monics O div f cands k = k /\ (forall c, List.In c cands -> forall Q, Poly f <> Q * Poly (c ++ [:: 1])) \/
  exists c h, [/\ @try_monics O div f cands k = Some (FFComposite (R := P) (c ++ [:: 1]) h), size c = d & Poly f = Poly h * Poly (c ++ [:: 1])].
Proof.
  elim: cands => [|c cands IH] Hc; first by left. cbn [try_monics]. rewrite (p_div_total D). cbn [obind]. rewrite [r1]/(1 : R). have := pdivP D f (c ++ [:: 1])%list. have -> : (c ++ [:: 1])%list = c ++ [:: 1] by [].
  case: pdiv => [h||].
  - case=> _ E. right. exists c, h. split=> //. apply: Hc. by left.
  - rewrite cats1 => /(congr1 (fun p : {poly R} => p`_(size c))). rewrite coef_Poly nth_rcons ltnn eqxx coef0 => /eqP. by rewrite oner_eq0.
  - case=> _ HQ. case: IH => [|[E H]|[c' [h [E1 E2 E3]]]]; first by move=> c' Hc'; apply: Hc; right.
    + left. split=> // c' [<-|Hc'] //. exact: H.
    + right. by exists c', h.
Qed.
Lemma monic_size (c : seq R) : size (Poly (c ++ [:: 1])) = (size c).+1.
Proof. rewrite cats1 (PolyK (c := 1)); first by rewrite size_rcons. by rewrite last_rcons oner_eq0. Qed.
Lemma try_all_ok f : Poly f != 0 -> (1 < size (Poly f))%N -> exists r, @find_factor_by_trying_all_factors O div units f = Some r /\ match r with
  | FFComposite g h => [/\ Poly f = Poly g * Poly h, prim (Poly g), prim (Poly h), (1 < size (Poly g))%N & (1 < size (Poly h))%N]
  | FFIrreducible => @rprime P f end.
Proof.
  move=> Hf0 Hs. rewrite /find_factor_by_trying_all_factors p_degreeE. case Es: (size (Poly f)) Hs => [|[|m]] // _. cbn [obind].
  set mx := (m.+1 / 2)%nat. have Hmx : (mx * 2 <= m.+1 < mx * 2 + 2)%N. { have := Nat.div_mod m.+1 2. have := Nat.mod_upper_bound m.+1 2. rewrite -/mx. lia. }
  set body := fun (d : nat) k => _. 
  have K n s : (s + n <= mx)%N -> (List.fold_right body (Some FFIrreducible) (List.seq s n) = Some FFIrreducible /\ (forall d, (s <= d < s + n)%N -> forall c : seq R, size c = d.+1 -> forall Q, Poly f <> Q * Poly (c ++ [:: 1]))) \/
    exists c h, [/\ List.fold_right body (Some FFIrreducible) (List.seq s n) = Some (FFComposite (R := P) (c ++ [:: 1]) h), (0 < size c <= mx)%N & Poly f = Poly h * Poly (c ++ [:: 1])].
  { elim: n s => [|n IH] s Hn. { left. split=> // d. rewrite addn0. lia. }
    cbn [List.seq List.fold_right]. rewrite {1}/body {2}/body. set k := List.fold_right _ _ _.
    have [|[E1 E2]|[c [h [E1 E2 E3]]]] := @try_monics_ok f (s + 1) (cartesian (List.repeat (0 :: units) (s + 1))) k.
    - by move=> c /in_cart_rep.
    - rewrite [r0]/(0 : R) E1. case: (IH s.+1) => [|[F1 F2]|H]; first by rewrite addSnnS.
      + left. split=> // d Hd c Hc. case: (ltngtP s d) => Hsd; [apply: (F2 d) => //|lia|]; first by lia. apply: E2. apply/in_cart_rep. by rewrite Hc Hsd addn1.
      + by right.
    - right. exists c, h. split=> //. rewrite E2. lia. }
  case: (K mx 0%N); first by rewrite add0n.
  - case=> E H. rewrite E. exists FFIrreducible. split=> //. apply: (prim_irr_prime fgcd_ok); [exact: field_prim|by rewrite Es|].
    have small (g h : {poly R}) : Poly f = h * g -> (size g <= size h)%N -> (size g <= 1)%N.
    { move=> Ef Hgh. rewrite leqNgt. apply/negP => Hg. have Hg0 : g != 0 by apply/eqP => Z; move: Hf0; rewrite Ef Z mulr0 eqxx. have Hh0 : h != 0 by apply/eqP => Z; move: Hf0; rewrite Ef Z mul0r eqxx.
      have Hl : lead_coef g \is a GRing.unit by apply: FU; rewrite lead_coef_eq0. set g1 := (lead_coef g)^-1 *: g.
      have Hl0 : (lead_coef g)^-1 != 0 by rewrite invr_eq0 lead_coef_eq0.
      have Sg : size g1 = size g by rewrite size_scale.
      have Mg : lead_coef g1 = 1 by rewrite lead_coefZ mulVr.
      set c := take (size g).-1 g1. have Sc : size c = (size g).-1 by rewrite size_takel // Sg leq_pred.
      have Ec : Poly (c ++ [:: 1]) = g1.
      { rewrite -[RHS]polyseqK. congr (Poly _). rewrite -[in RHS](cat_take_drop (size g).-1 g1). congr (_ ++ _). have : size (drop (size g).-1 g1) = 1%N by rewrite size_drop Sg; move: Hg; set x := size g; lia.
        move=> Hd. have := nth_drop (size g).-1 0 g1 0. rewrite addn0. move: Hd Mg. rewrite lead_coefE Sg. by case: drop => [|x [|? ?]] //= _ -> ->. }
      have Sz := size_mul Hh0 Hg0. rewrite -Ef Es in Sz.
      apply: (H (size g).-2 _ c _ (lead_coef g *: h)).
      - move: Hg Hgh Sz. set x := size g. set y := size h. lia.
      - rewrite Sc. move: Hg. by case: (size g) => [|[|x]].
      - by rewrite Ec /g1 -scalerAl -scalerAr scalerA divrr // scale1r. }
    move=> g h Ef. case: (leqP (size g) (size h)) => Hgh; [left|right]; first by apply: (small g h) => //; rewrite mulrC. apply: (small h g) => //. exact: ltnW.
  - case=> c [h [E1 E2 E3]]. rewrite E1. exists (FFComposite (R := P) (c ++ [:: 1]) h). split=> //. have Hh0 : Poly h != 0 by apply/eqP => Z; move: Hf0; rewrite E3 Z mul0r eqxx.
    have Hc0 : Poly (c ++ [:: 1]) != 0 by rewrite -size_poly_eq0 monic_size. have Sz := size_mul Hh0 Hc0. rewrite -E3 Es monic_size in Sz.
    split; [by rewrite mulrC|exact: field_prim|exact: field_prim|by rewrite monic_size; case/andP: E2|]. move: E2 Sz. set x := size c. set y := size (Poly h). lia.
Qed.
Lemma trying_ok f : Poly f != 0 -> exists r, [/\ @factorize_by_trying_all_factors O div ffa units f = Some (Some r), okf div ffa r & ex r = Poly f].
Proof.
  move=> Hf. rewrite /factorize_by_trying_all_factors p_is_zeroE (negPf Hf). have [|r [E1 E2 E3]] := @fbff_prim (@find_factor_by_trying_all_factors O div units) _ f (field_prim Hf).
  - move=> g Hg Hg1. apply: try_all_ok => //. exact: prim_neq0.
  - exists r. by rewrite E1.
Qed.
End Try.
End K.
