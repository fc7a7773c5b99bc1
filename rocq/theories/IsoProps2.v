(* C74: Collins-Akritas isolation terminates without a panic. *)
From Coq Require Import List Arith NArith ZArith Bool.
From mathcomp Require Import all_ssreflect all_algebra all_field.
From mathcomp Require Import zify.
From Coq Require Import Lia.
From Verif Require Import RingSpec RingModel FactoredModel PermModel MatModel MatSpec ZRing MatInst PolyModel PolySpec PolyProofs PolyProofs2 PolyProofs10 PolyProofs12 BoundProofs2 PolyProps3 FacModel2 IsoModel IsoProofs IsoProofs2 IsoProofs3 IsoProps IsoProofs4 IsoProofs5 IsoProofs6.
Close Scope rs_scope. Close Scope Q_scope.
Set Implicit Arguments.
Unset Strict Implicit.
Unset Printing Implicit Defensive.
Import Order.TTheory GRing.Theory Num.Theory.
Local Open Scope ring_scope.
Notation ZPoly p := (Poly (p : seq Z_idomainType)).
Lemma coprime_sep (p : list Z) : coprimep (ZPoly p) (ZPoly p)^`() -> sep p.
Proof.
  case/Pdiv.Idomain.Bezout_coprimepP => [[u v]] /= E. move: E; rewrite -size_poly_eq1 => /size_poly1P [c c0 Ec].
  have EZ : map_poly zQ (u * ZPoly p + v * (ZPoly p)^`()) = map_poly zQ c%:P by rewrite -Ec.
  have C0 : zQ c != 0 by apply: contraNneq c0 => /zin_inj ->.
  move: EZ. rewrite rmorphD !rmorphM /= -deriv_map map_polyC /= => EZ.
  exists ((zQ c)^-1 *: map_poly zQ u), ((zQ c)^-1 *: map_poly zQ v). rewrite -!scalerAl -scalerDr. rewrite [X in _ *: X]EZ -mul_polyC -polyCM mulVf //.
Qed.
(* a polynomial in normal form (no stored zero above the degree), squarefree and without a root at 0 or 1: the debug assertions pass, every subtraction and division is exact
   and the loop ends *)
Theorem C74_terminates (p : list Z) : last (Zpos 1) p <> Z0 -> Poly p != 0 :> {poly Z_idomainType} -> (ZPoly p).[Z0] != Z0 -> (ZPoly p).[Zpos 1] != Z0 -> coprimep (ZPoly p) (ZPoly p)^`() ->
  exists fuel out, isolate_real_roots_by_collin_akritas fuel p = Some out.
Proof.
  move=> HL0 p0 E0 E1 C. have Sp := coprime_sep C.
  have Rp : red p. { rewrite /red PR_size. have : last 1 (p : seq Z_comRingType) != 0 by apply/eqP. move/PolyK. by move=> /= ->. }
  have S0 : size p != 0%N by apply: contraNneq p0 => /size0nil ->.
  have [f Hf] : halts [:: (N0, 0%N, p)].
    apply: (@HL_all (size p) p) => //. by exists 0%N.
  rewrite /isolate_real_roots_by_collin_akritas !(p_evaluateE (R := Z_idomainType)).
  exists f. case: Z.eqb_spec => [Z|_]; first by move: E0; rewrite Z eqxx. case: Z.eqb_spec => [Z|_]; first by move: E1; rewrite Z eqxx. cbn [negb].
  have [s [Es Hp [q Eq] Hs Hu]] := psf_ok Zidom Zgcd_ok dig_char0 p0. rewrite Es. cbn [obind].
  have [q0 s0] : q != 0 /\ ZPoly s != 0 by apply/andP; rewrite -negb_or -mulf_eq0 -Eq.
  (* q divides p and is coprime to s *)
  have Sq : size q = 1%N.
    have H : (size q <= 1)%N.
      apply: Hu; first by rewrite Eq dvdp_mulr. move: C. rewrite Eq derivM => /coprimepP C. apply/coprimepP => d d1 d2. apply: C; first exact: dvdp_mulr. apply: dvdp_add; [exact: dvdp_mull|exact: dvdp_mulr].
    by apply/eqP; rewrite eqn_leq H size_poly_gt0.
  have SS : size (ZPoly p) = size (ZPoly s) by rewrite Eq size_mul // Sq.
  rewrite !(p_degreeE (R := Z_idomainType)) SS. case E: (size (ZPoly s)) => [|n]; first by move: s0; rewrite -size_poly_eq0 E.
  cbn [obind]. rewrite Nat.eqb_refl. case EL: iso_loop (Hf [::]) => [out|] // _. by exists out.
Qed.
Print Assumptions C74_terminates.
(* the hypotheses hold for (2x - 1)(3x - 1) *)
Example C74_terminates_ex : exists fuel out, isolate_real_roots_by_collin_akritas fuel ex_iso = Some out.
Proof.
  have p0 : Poly ex_iso != 0 :> {poly Z_idomainType}.
    apply/eqP => H. have : (Poly ex_iso : {poly Z_idomainType})`_0 = 0 by rewrite H coef0. by rewrite coef_Poly.
  apply: C74_terminates => //.
  - apply/eqP => H. have : Zpos 1 = Z0 by rewrite -[RHS]H; exact: (@p_evaluateE Z_idomainType ex_iso Z0). by [].
  - apply/eqP => H. have : Zpos 2 = Z0 by rewrite -[RHS]H; exact: (@p_evaluateE Z_idomainType ex_iso (Zpos 1)). by [].
  eapply (@assert_sqfree ex_iso _ 2); [exact: p0|vm_compute; reflexivity|vm_compute; reflexivity|vm_compute; reflexivity].
Qed.
(* a stored zero above the degree makes `degree - i` underflow *)
Example C74_unreduced_panics : isolate_real_roots_by_collin_akritas 20 [:: Zpos 1; Zneg 5; Zpos 6; Z0] = None.
Proof. by vm_compute. Qed.
