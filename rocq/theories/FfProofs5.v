(* From find_factor to factorize_berlekamps; what a valid Factored polynomial over a field is. *)
From Coq Require Import List Arith NArith Bool.
From mathcomp Require Import all_ssreflect all_fingroup all_algebra all_solvable all_field separable.
From mathcomp Require Import zify.
From Coq Require Import Lia.
From Verif Require Import RingSpec RingModel RingProofs FactoredSpec FactoredModel FactoredProofs PermModel MatModel MatSpec MatProofs2 LatModel LatSpec PolyModel PolyProofs PolyProofs2 PolyProofs3 PolyProofs10 PolyProofs11 PolyProofs12 FacModel FacProofs FacProofs2 FacProofs3 FacProofs4 FfModel FfProofs FfProofs2 FfProofs4.
Close Scope rs_scope.
Set Implicit Arguments.
Unset Strict Implicit.
Unset Printing Implicit Defensive.
Import GRing.Theory.
Local Open Scope ring_scope.

Section S.
Variable R : idomainType.
Notation O := (mc_ops R).
Notation P := (poly_ops O).
Variable div : div_op O.
Hypothesis D : idom_laws O div.
Hypothesis FD : forall x y : R, y != 0 -> exists q, div x y = DivOk q.
Variable ffa : ffa_op O.
Hypothesis FA : ffa_laws O ffa.
Notation pdv := (@pdivr O div).
Notation pfa := (@pffar O div ffa).
Let PD : idom_laws P pdv := poly_idom D.
Let PF : ffa_laws P pfa := poly_ffa D FA.
Notation fact := (factored P).
Notation ex := (fun f : fact => Poly (@expand P f)).
Implicit Types (f g a b : seq R) (A B Q : {poly R}).
Let FU : forall x : R, x != 0 -> x \is a GRing.unit := field_unit D FD.

Lemma fav_monic f : Poly f != 0 -> @is_fav_assoc P pfa f = true -> Poly f \is monic.
Proof.
  move=> f0. rewrite /is_fav_assoc -[@pffar O div ffa f]/(pffa div ffa f). have [f' [-> E]] := pffaE D FA f. rewrite (negPf f0). rewrite (ffa1 D FD FA) ?lead_coef_eq0 // in E. cbn [snd] => /p_equalP E'.
  rewrite E'. have -> : Poly f' = (lead_coef (Poly f))^-1 *: Poly f by rewrite {2}E mul_polyC scalerA mulVr ?FU ?lead_coef_eq0 // scale1r. exact: (monicize D FD).
Qed.
Lemma powersE (l : seq (seq R * N)) : Poly (@powers_prod P l) = \prod_(x <- l) Poly x.1 ^+ N.to_nat x.2.
Proof. elim: l => [|[f k] l IH]; first by rewrite big_nil [powers_prod _]/= Poly1 polyC1. by rewrite big_cons -IH [powers_prod _]/= pmulE pnpowE. Qed.
Lemma okf_monic (r : fact) x : okf div ffa r -> List.In x (f_factors r) -> Poly (x.1 : seq R) \is monic.
Proof.
  case=> _ [V1 _] V2 Hx. move/List.Forall_forall: V2 => /(_ _ Hx) H. move/List.Forall_forall: V1 => /(_ _ Hx) [[Hz _] _]. apply: fav_monic H. apply/eqP => Z. move/negP: Hz; apply. apply/p_equalP. by rewrite Z.
Qed.
Lemma okf_lead (r : fact) : okf div ffa r -> Poly (f_unit r : seq R) = (lead_coef (ex r))%:P /\ ex r = lead_coef (ex r) *: \prod_(x <- f_factors r) Poly (x.1 : seq R) ^+ N.to_nat x.2.
Proof.
  move=> H. have [/punitE [u U E] _ _] := H. have M : \prod_(x <- f_factors r) Poly (x.1 : seq R) ^+ N.to_nat x.2 \is monic.
  { rewrite big_seq. apply: monic_prod => x Hx. apply: monic_exp. apply: (okf_monic H). exact/(MatProofs4.in_mem x). }
  have Ex : ex r = u *: \prod_(x <- f_factors r) Poly (x.1 : seq R) ^+ N.to_nat x.2 by rewrite (exE D) E powersE mul_polyC.
  have El : lead_coef (ex r) = u by rewrite Ex lead_coefZ (monicP M) mulr1. by rewrite E Ex lead_coefZ (monicP M) mulr1.
Qed.
(* the recursion of factorize_by_find_factor on separable polynomials *)
Lemma fbff_sep (pf : seq R -> option (@find_factor_result P)) :
  (forall f, (1 < size (Poly f))%N -> coprimep (Poly f) (Poly f)^`() -> exists r, pf f = Some r /\ match r with
    | FFComposite g h => [/\ Poly f = Poly (g : seq R) * Poly (h : seq R), (1 < size (Poly (g : seq R)))%N & (1 < size (Poly (h : seq R)))%N]
    | FFIrreducible => forall A B : {poly R}, Poly f = A * B -> (size A <= 1)%N \/ (size B <= 1)%N end) ->
  forall f, coprimep (Poly f) (Poly f)^`() -> exists r, [/\ @factorize_by_find_factor P pdv pfa (length f + 1)%coq_nat pf f = Some r, okf div ffa r & ex r = Poly f].
Proof.
  move=> H f Hf. have nz (g : seq R) : coprimep (Poly g) (Poly g)^`() -> Poly g != 0. { move=> C. apply/eqP => Z. move: C. by rewrite Z linear0 /coprimep gcd0p size_poly0. }
  have sepl A B : coprimep (A * B) (A * B)^`() -> coprimep A A^`().
  { move=> C. apply/coprimepP => G H1 H2. move/coprimepP: C => /(_ G); apply; first exact: dvdp_mulr. rewrite derivM dvdp_add //; exact: dvdp_mulr. }
  have H1 : forall e, coprimep (Poly e) (Poly e)^`() -> ~ eqv P e (@r0 P) -> ~ @runit P e -> exists r, pf e = Some r /\
    match r with FFIrreducible => @rprime P e | FFComposite g h => @req P e (@rmul P g h) = true /\ (size (Poly (g : seq R)) < size (Poly e))%coq_nat /\ (size (Poly (h : seq R)) < size (Poly e))%coq_nat /\ coprimep (Poly (g : seq R)) (Poly (g : seq R))^`() /\ coprimep (Poly (h : seq R)) (Poly (h : seq R))^`() end.
  { move=> e He Hz Hu. have He0 := nz e He. have He1 : (1 < size (Poly e))%N by apply: (@nonunit_size R) => //; apply: field_prim.
    have [r [Er Hr]] := H e He1 He. exists r. split=> //. case: r Hr {Er} => [|g h].
    - move=> Hi. apply: (prim_irr_prime (fgcd_ok FA FU)) => //. exact: field_prim.
    - case=> E1 E4 E5. have E2 : Poly (g : seq R) != 0 by rewrite -size_poly_gt0; apply: ltn_trans E4. have E3 : Poly (h : seq R) != 0 by rewrite -size_poly_gt0; apply: ltn_trans E5.
      have := size_mul E2 E3. rewrite -E1 => Es. split; first by apply/p_equalP; rewrite pmulE.
      split; last split; [| |split]; last first.
      + rewrite E1 mulrC in He. exact: sepl He.
      + rewrite E1 in He. exact: sepl He.
      + move: E4 E5 Es. clear. move: (size (Poly (g : seq R))) (size (Poly (h : seq R))) (size (Poly e)) => x y z. lia.
      + move: E4 E5 Es. clear. move: (size (Poly (g : seq R))) (size (Poly (h : seq R))) (size (Poly e)) => x y z. lia. }
  have H2 : (size (Poly f) < (length f + 1)%coq_nat)%coq_nat by rewrite lengthE; apply/ltP; rewrite plusE addn1 ltnS; exact: size_Poly.
  have H3 : ~ eqv P f (@r0 P) by move/eqvE => E; have := nz f Hf; rewrite E eqxx.
  case: (@factorize_by_find_factor_ok P pdv pfa PD PF (fun e => coprimep (Poly (e : seq R)) (Poly (e : seq R))^`()) pf (fun e => size (Poly (e : seq R))) H1 _ _ H2 Hf H3) => r [E1 [E2 [E3 [E4 E5]]]].
  exists r. split; [exact: E1|by split|]. exact/eqvE/E2.
Qed.
(* powers of a monic factored polynomial are right although pow() leaves the unit alone *)
Lemma ex_pow_monic (r : fact) (k : N) : okf div ffa r -> ex r \is monic -> (0 < N.to_nat k)%N -> okf div ffa (f_pow (R := P) r k) /\ ex (f_pow (R := P) r k) = ex r ^+ N.to_nat k.
Proof.
  move=> H M Hk. have [n En] : exists n, N.to_nat k = n.+1 by case: (N.to_nat k) Hk => // n _; exists n. have Ek : k = N.of_nat n.+1 by lia. have [H1 H2] := ex_pow D n H. rewrite Ek. split; first exact: H1.
  move: H2. rewrite (okf_lead H).1 (monicP M) polyC1 expr1n mulr1 Nat2N.id. by [].
Qed.
Lemma fold_berl (ff : seq R -> option fact) :
  (forall f, coprimep (Poly f) (Poly f)^`() -> exists r, [/\ ff f = Some r, okf div ffa r & ex r = Poly f]) ->
  forall (l : seq (seq R * N)) (r0 : fact), (forall x, x \in l -> [/\ Poly x.1 \is monic, coprimep (Poly x.1) (Poly x.1)^`() & (0 < N.to_nat x.2)%N]) -> okf div ffa r0 ->
  exists r, [/\ List.fold_left (fun acc fk => do factors <- acc; do r <- ff (fst fk); Some (f_mul (R := P) pdv factors (f_pow (R := P) r (snd fk)))) l (Some r0) = Some r, okf div ffa r &
    ex r = ex r0 * \prod_(x <- l) Poly x.1 ^+ N.to_nat x.2].
Proof.
  move=> Hff. elim=> [|[f k] l IH] r0 Hl H0. { exists r0. by rewrite big_nil mulr1. }
  have [M C K] := Hl (f, k) (mem_head _ _). have [r [Er Or Xr]] := Hff f C. cbn [List.fold_left fst snd obind]. rewrite Er. cbn [obind].
  have [|O1 X1] := @ex_pow_monic r k Or _ K; first by rewrite Xr.
  have [O2 X2] := ex_mul D FA H0 O1. have [|r' [E' O' X']] := IH _ _ O2; first by move=> x Hx; apply: Hl; rewrite inE Hx orbT.
  exists r'. split=> //. by rewrite X' X2 X1 Xr big_cons mulrA.
Qed.
End S.
