(* C74: Collins-Akritas isolation of the real roots in [0, 1] (rings/src/number/algebraic/real/polynomial.rs l.583-648). *)
From Coq Require Import List Arith NArith ZArith Bool Sorted.
From mathcomp Require Import all_ssreflect all_algebra all_field.
From mathcomp Require Import zify.
From Coq Require Import Lia.
From Verif Require Import RingSpec RingModel FactoredModel PermModel MatModel MatSpec ZRing MatInst PolyModel PolySpec PolyProofs PolyProofs2 PolyProofs10 PolyProofs12 BoundProofs2 PolyProps3 FacModel2 IsoModel IsoProofs IsoProofs2 IsoProofs3.
Close Scope rs_scope. Close Scope Q_scope.
Set Implicit Arguments.
Unset Strict Implicit.
Unset Printing Implicit Defensive.
Import Order.TTheory GRing.Theory Num.Theory.
Local Open Scope ring_scope.

(* ------------------------------------------------------------------ specification *)
Section Spec.
Variable R : rcfType.
(* the integer polynomial as a polynomial over R *)
Definition over (p : list Z) : {poly R} := map_poly (zin R) (Poly p).
(* the points of a piece: the point c/2^k, or the open interval from c/2^k to (c+1)/2^k *)
Definition in_piece (e : piece) (x : R) : Prop := let: (c, k, h) := e in
  if h then (N.to_nat c)%:R / 2%:R ^+ k < x /\ x < (N.to_nat c).+1%:R / 2%:R ^+ k else x = (N.to_nat c)%:R / 2%:R ^+ k.
(* every piece lies in (0, 1) and contains exactly one root, every root in [0, 1] is in exactly one piece, and the pieces are listed from left to right *)
Definition isolates_01 (p : {poly R}) (out : list piece) : Prop :=
  [/\ forall e x, In e out -> in_piece e x -> 0 < x /\ x < 1,
      forall e, In e out -> exists! x, root p x /\ in_piece e x,
      forall x, 0 <= x -> x <= 1 -> root p x -> exists! e, In e out /\ in_piece e x &
      StronglySorted (fun e e' => forall x y, in_piece e x -> in_piece e' y -> x < y) out].
End Spec.

Lemma SS_cases (A : Type) (r : A -> A -> Prop) l x y : StronglySorted r l -> In x l -> In y l -> x = y \/ r x y \/ r y x.
Proof.
  elim: l => //= a l IH S. have [S1 /Forall_forall F] := StronglySorted_inv S. case=> [<-|Hx] [<-|Hy]; auto.
Qed.
Notation ZPoly p := (Poly (p : seq Z_idomainType)).
Lemma dig_char0 n : n.+1%:R != 0 :> Z_idomainType.
Proof. apply/eqP => H. have := congr1 (zin [ringType of rat]) H. rewrite (rmorph_nat (zin_rmorph [ringType of rat])) [zin _ 0]/(0) => /eqP. by rewrite pnatr_eq0. Qed.
(* the debug assertion of l.609-612 lets exactly the squarefree polynomials through *)
Lemma assert_sqfree (p : list Z) s d : ZPoly p != 0 -> @primitive_squarefree_part ZO Zdiv Zgcd p = Some s -> @p_degree ZO s = Some d -> @p_degree ZO p = Some d ->
  coprimep (ZPoly p) (ZPoly p)^`().
Proof.
  move=> p0 E D1 D2. have [s' [Es Hp [q Eq] Hs _]] := psf_ok Zidom Zgcd_ok dig_char0 p0. move: Es. rewrite E => -[?]; subst s'.
  apply/(sqfree_char0 dig_char0 p0) => u Hu. apply: Hs.
  have S : size (ZPoly s) = size (ZPoly p).
    have := @p_degreeE Z_idomainType s. have := @p_degreeE Z_idomainType p. rewrite D1 D2. by case: size => [|n] //; case: size => [|m] // [<-] [<-].
  have [q0 s0] : q != 0 /\ ZPoly s != 0 by apply/andP; rewrite -negb_or -mulf_eq0 -Eq.
  have S1 : size q = 1%N. { have := size_mul q0 s0. rewrite -Eq S. have : (0 < size (ZPoly p))%N by rewrite size_poly_gt0. case: (size (ZPoly p)) => // n _. case: (size q) => [|[|k]] //=; rewrite ?addSn ?add0n //=; clear; lia. }
  move/eqP: S1 => /size_poly1P [c c0 Ec]. move: Hu. by rewrite Eq Ec mul_polyC dvdpZr.
Qed.

Section C74.
Variable R : rcfType.
Notation zR := (zin R).
Lemma in_pieceE (e : piece) (x : R) : in_piece e x <-> inp e x.
Proof. case: e => [[c k] h] /=. have E : (N.to_nat c)%:R + 1 = (N.to_nat c).+1%:R :> R by rewrite -addn1 natrD. by rewrite /at_ addr0 E. Qed.
(* a polynomial the debug assertion lets through has no multiple root *)
Lemma coprime_simple (p : list Z) : coprimep (Poly p : {poly Z_idomainType}) (Poly p)^`() -> simple (over R p).
Proof.
  case/Pdiv.Idomain.Bezout_coprimepP => [[u v]] /= E x Hx. apply/negP => Hd.
  move: E; rewrite -size_poly_eq1 => /size_poly1P [c c0 Ec].
  have EZ : map_poly zR (u * ZPoly p + v * (ZPoly p)^`()) = map_poly zR c%:P by rewrite -Ec.
  have EX := congr1 (fun w : {poly R} => w.[x]) EZ. move: EX.
  rewrite rmorphD !rmorphM /= -deriv_map map_polyC /= !hornerE.
  have -> : (map_poly zR (ZPoly p)).[x] = 0 by apply/eqP.
  have -> : (map_poly zR (ZPoly p))^`().[x] = 0 by apply/eqP.
  rewrite !mulr0 addr0 => /esym H. move/negP: c0; apply. apply/eqP. exact: zin_inj H.
Qed.
Theorem C74_isolates fuel (p : list Z) out : isolate_real_roots_by_collin_akritas fuel p = Some out -> isolates_01 (over R p) out.
Proof.
  rewrite /isolate_real_roots_by_collin_akritas. case E0: Z.eqb => //=. case E1: Z.eqb => //=.
  case ES: primitive_squarefree_part => [s|] //=. case D1: p_degree => [d1|] //=. case D2: p_degree => [d2|] //=. case: Nat.eqb_spec => // ED HL. subst d2.
  have p0 : ZPoly p != 0. { apply: contraFneq E0 => Z. have := @p_evaluateE Z_idomainType p Z0. rewrite Z horner0 => ->. by []. }
  have SI := coprime_simple (assert_sqfree p0 ES D1 D2).
  have P0 : IsoProofs.PR R p != 0 by rewrite PR_eq0.
  have AT t : @at_ R N0 0 t = t by rewrite /at_ expr0 divr1 add0r.
  have R0 : root (over R p) 0 = false by rewrite PR0 E0 orbF; apply/negbTE.
  have R1 : root (over R p) 1 = false.
    have E : (over R p).[1] = zR (@p_evaluate ZO p (Zpos 1)) by rewrite p_evaluateE; exact: (horner_map (zin_rmorph R) (Poly p) (Zpos 1)).
    by rewrite rootE E zin_eq0.
  have [new [E [G1 G2 G3 G4]]] : exists new, out = [::] ++ new /\ isolates (over R p) (@covs R [:: (N0, 0%N, p)]) new.
    apply: loop_ok HL.
    - move=> i [<-|[]]. split=> //; [by move=> t _ _; rewrite AT|by rewrite AT].
    - apply: SSorted_cons; [exact: SSorted_nil|exact: Forall_nil].
  move: E => /= ?; subst new.
  have CV x : @covs R [:: (N0, 0%N, p)] x <-> 0 < x /\ x < 1.
    split.
    - case=> i [[<-|[]]] /=; rewrite !AT => -[[H1 H2]|[_ H]] //. by move: H; rewrite R0.
    - move=> H. exists (N0, 0%N, p). split; [by left|left]. by rewrite !AT.
  split.
  - move=> e x He /in_pieceE Hx. apply/CV. exact: G3 He Hx.
  - move=> e He. have [x [H1 H2 H3]] := G1 e He. exists x. split; first by split=> //; apply/in_pieceE. move=> y [Hy /in_pieceE Hy']. symmetry. exact: H3.
  - move=> x x0 x1 Hx. have HC : 0 < x /\ x < 1.
      rewrite !lt_neqAle x0 x1 !andbT eq_sym. split; [by apply: contraFneq R0 => <-|by apply: contraFneq R1 => <-].
    have [e [He Hi]] := G2 x Hx (proj2 (CV x) HC). exists e. split; first by split=> //; apply/in_pieceE.
    move=> e' [He' /in_pieceE Hi']. case: (SS_cases G4 He He') => [//|[H|H]].
    + by have := H x x Hi Hi'; rewrite ltxx.
    + by have := H x x Hi' Hi; rewrite ltxx.
  - elim: out G4 {HL G1 G2 G3} => [|e l IH] S; first exact: SSorted_nil. have [S1 /Forall_forall F] := StronglySorted_inv S. apply: SSorted_cons; first exact: IH.
    apply/Forall_forall => e' He' x y /in_pieceE Hx /in_pieceE Hy. exact: F He' x y Hx Hy.
Qed.
End C74.
Print Assumptions C74_isolates.
(* (2x - 1)(3x - 1): one root in the open left half, the other in the middle *)
Definition ex_iso : list Z := [:: Zpos 1; Zneg 5; Zpos 6].
Example C74_ex : isolate_real_roots_by_collin_akritas 20 ex_iso = Some [:: (0%num, 1%N, true); (1%num, 1%N, false)].
Proof. by vm_compute. Qed.
