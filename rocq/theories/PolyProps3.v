(* C27: primitive parts and the gcd of polynomials over a GCD domain. *)
From Coq Require Import List Arith NArith ZArith Bool.
From mathcomp Require Import all_ssreflect all_algebra.
From Coq Require Import Lia.
From Verif Require Import RingSpec RingModel RingProofs RingProps PermModel MatModel MatSpec ZRing MatInst PolyModel PolySpec PolyProofs PolyProofs2 PolyProofs3 PolyProofs8 PolyProofs9 PolyProofs10 PolyProofs11 PolyProofs12 PolyProps2.
Close Scope rs_scope.
Set Implicit Arguments.
Unset Strict Implicit.
Unset Printing Implicit Defensive.
Import GRing.Theory.
Local Open Scope ring_scope.

Section C27.
Variable R : idomainType.
Notation O := (mc_ops R).
Variable div : div_op O.
Hypothesis D : idom_laws O div.
Variable ffa : ffa_op O.
Variable gcd : R -> R -> R.
Hypothesis G : gcd_laws O ffa gcd.
Implicit Types (a b p : seq R).
(* Gauss' lemma for every GCD domain *)
Theorem C27_gauss (A B : {poly R}) : primitive A -> primitive B -> primitive (A * B).
Proof. exact: (gauss (GE G)). Qed.
(* factor_primitive never panics; None exactly on 0; otherwise content times primitive part *)
Theorem C27_factor_primitive p : exists o, @factor_primitive O div gcd p = Some o /\
  match o with None => Poly p = 0 | Some (c, q) => [/\ Poly p != 0, Poly p = c *: Poly q, c != 0 & primitive (Poly q)] end.
Proof.
  case: (@eqP _ (Poly p) 0) => [Hp|/eqP Hp]; first by exists None; rewrite (fp_zero _ _ Hp). have [c [q [E1 E2 E3 E4 _]]] := fp_ok D G Hp. by exists (Some (c, q)).
Qed.
Theorem C27_is_primitive p : exists r : bool, @is_primitive O div gcd p = Some r /\ (r <-> primitive (Poly p)).
Proof.
  rewrite /is_primitive. have [o [E H]] := C27_factor_primitive p. rewrite E. cbn [obind]. case: o H {E} => [[c q] [H1 H2 H3 H4]|H].
  - have HU : is_unit div c <-> divides c 1.
    { rewrite /is_unit. have := divP D 1 c. case: div => [u||]; [case=> -> _|by move=> Z; move: H3; rewrite Z eqxx|case=> _ K]; split=> //; first by exists u. by case=> u /K. }
    exists (is_unit div c). split=> //. rewrite HU H2. split.
    + move=> Hu. exact: prim_unit_scale Hu H4.
    + move=> Hp. apply: Hp. exact: dvp_scale.
  - exists false. split=> //. split=> // Hp. by have := prim_neq0 Hp; rewrite H eqxx.
Qed.
(* gcd_by_primitive_subresultant never panics.  If an argument is 0 it returns the other one.  Otherwise the result g is primitive, divides
   both arguments, and is divisible by every PRIMITIVE common divisor; multiplied by the gcd of the contents it is a greatest common divisor *)
Theorem C27_gcd_partial a b : exists g, @gcd_by_primitive_subresultant O div gcd a b = Some g /\
  ((Poly a = 0 -> g = b) /\ (Poly a != 0 -> Poly b = 0 -> g = a)) /\
  (Poly a != 0 -> Poly b != 0 ->
    [/\ primitive (Poly g), pdivides (Poly g) (Poly a), pdivides (Poly g) (Poly b) & forall d, primitive d -> pdivides d (Poly a) -> pdivides d (Poly b) -> pdivides d (Poly g)] /\
    exists ca cb pa pb, [/\ @factor_primitive O div gcd a = Some (Some (ca, pa)), @factor_primitive O div gcd b = Some (Some (cb, pb)) &
      let h := gcd ca cb *: Poly g in [/\ pdivides h (Poly a), pdivides h (Poly b) & forall d, pdivides d (Poly a) -> pdivides d (Poly b) -> pdivides d h]]).
Proof.
  case: (@eqP _ (Poly a) 0) => [Ha|/eqP Ha].
  - exists b. rewrite /gcd_by_primitive_subresultant p_is_zeroE Ha eqxx. by [].
  case: (@eqP _ (Poly b) 0) => [Hb|/eqP Hb].
  - exists a. rewrite /gcd_by_primitive_subresultant !p_is_zeroE Hb (negPf Ha) eqxx. split=> //. split; last by move=> _ /negP[]. by split=> // Z; move: Ha; rewrite Z eqxx.
  have [g [E H1 H2 H3 H4]] := gcdps_ok D G Ha Hb. exists g. split=> //. split; first by split=> [Z|_ Z]; [move: Ha|move: Hb]; rewrite Z eqxx.
  move=> _ _. split=> //. exact: (gcdps_full D G Ha Hb E).
Qed.
(* so it is a gcd when the contents are coprime, e.g. for primitive arguments *)
Theorem C27_gcd_primitive a b : Poly a != 0 -> Poly b != 0 -> primitive (Poly a) \/ primitive (Poly b) -> exists g, @gcd_by_primitive_subresultant O div gcd a b = Some g /\
  [/\ pdivides (Poly g) (Poly a), pdivides (Poly g) (Poly b) & forall d, pdivides d (Poly a) -> pdivides d (Poly b) -> pdivides d (Poly g)].
Proof.
  move=> Ha Hb Hab. have [g [E [_ /(_ Ha Hb) [[H1 H2 H3 H4] _]]]] := C27_gcd_partial a b. exists g. split=> //. split=> // d Hda Hdb. apply: H4 => //.
  case: Hab => Hp; [case: Hda|case: Hdb] => q Eq; by apply: prim_dv Hp Eq.
Qed.
(* primitive_squarefree_part (characteristic 0): a primitive divisor of f without square factors that shares a factor with every
   nonconstant divisor of f *)
Theorem C27_squarefree_part f : (forall n, (n.+1)%:R != 0 :> R) -> Poly f != 0 -> exists s, [/\ @primitive_squarefree_part O div gcd f = Some s, primitive (Poly s), pdivides (Poly s) (Poly f),
  forall u : {poly R}, u ^+ 2 %| Poly s -> (size u <= 1)%N & forall u : {poly R}, (1 < size u)%N -> u %| Poly f -> ~~ coprimep u (Poly s)].
Proof.
  move=> C0 Hf. have [s [H1 H2 H3 H4 H5]] := psf_ok D G C0 Hf. exists s. split=> // u Hu Hd. apply/negP => Hc. have := H5 u Hd Hc. by rewrite leqNgt Hu.
Qed.
End C27.
Print Assumptions C27_gauss. Print Assumptions C27_factor_primitive. Print Assumptions C27_is_primitive. Print Assumptions C27_gcd_partial. Print Assumptions C27_gcd_primitive. Print Assumptions C27_squarefree_part.

(* the integers; integer/mod.rs l.127-131: gcd = euclidean_gcd *)
Notation ZO := (mc_ops Z_comRingType).
Definition Zgcd (x y : Z) : Z := match @euclidean_gcd ZO Zffa Zquorem (S (@nrm ZO Znorm y)) x y with Some g => g | None => Z0 end.
Lemma Zgcd_ok : @gcd_laws ZO Zffa Zgcd.
Proof.
  move=> x y. have [g [a [b [H1 [H2 [H3 [H4 H5]]]]]]] := @euclidean_xgcd_ok ZO (id_ring _ _ Zidom) Zdiv Zidom Zffa Zffa_ok Znorm Zquorem Zeuclid (S (@nrm ZO Znorm y)) x y (Nat.lt_succ_diag_r _).
  rewrite /Zgcd H2. by split.
Qed.
Definition C27_int_gcd := @C27_gcd_partial Z_idomainType Zdiv Zidom Zffa Zgcd Zgcd_ok.
Definition C27_int_squarefree_part f := @C27_squarefree_part Z_idomainType Zdiv Zidom Zffa Zgcd Zgcd_ok f Z_char0.
(* gcd(2x, 4x) = x, though 2 divides both and not x *)
Theorem C27_gcd_refuted : exists a b g : seq Z, @gcd_by_primitive_subresultant ZO Zdiv Zgcd a b = Some g /\
  exists d : {poly Z_idomainType}, pdivides d (Poly (a : seq Z_idomainType)) /\ pdivides d (Poly (b : seq Z_idomainType)) /\ ~ pdivides d (Poly (g : seq Z_idomainType)).
Proof.
  exists [:: Z0; Zpos 2], [:: Z0; Zpos 4], [:: Z0; Zpos 1]. split; first by vm_compute.
  have K (c d : Z_idomainType) : Poly [:: Z0 : Z_idomainType; d * c] = (d *: 'X) * c%:P.
  { apply/polyP => i. rewrite coefMC coefZ coefX coef_Poly. case: i => [|[|i]] /=; rewrite ?mulr0 ?mulr1 ?mul0r //. by rewrite nth_nil. }
  exists ((Zpos 2 : Z_idomainType)%:P). split; [|split].
  - exists (1 *: 'X). exact: (K (Zpos 2) 1).
  - exists ((Zpos 2 : Z_idomainType) *: 'X). exact: (K (Zpos 2) (Zpos 2)).
  - case=> Q /(congr1 (fun p : {poly Z_idomainType} => p`_1)). rewrite coef_Poly coefMC. set q : Z := Q`_1. move=> E. have : Zpos 1 = Z.mul q (Zpos 2) by exact: E. clear. lia.
Qed.
Print Assumptions C27_gcd_refuted.
(* gcd(x, -x) = -x, which is not the favourite associate x (the first coefficient in the order of factor_fav_assoc is the leading one) *)
Theorem C27_fav_refuted : exists a b g : seq Z, @gcd_by_primitive_subresultant ZO Zdiv Zgcd a b = Some g /\
  (exists u h, @p_factor_fav_assoc ZO Zdiv Zffa g = Some (u, h) /\ Poly (h : seq Z_idomainType) <> Poly (g : seq Z_idomainType)).
Proof.
  exists [:: Z0; Zpos 1], [:: Z0; Zneg 1], [:: Z0; Zneg 1]. split; first by vm_compute. eexists; eexists. split; first by vm_compute.
  move/(congr1 (fun p : {poly Z_idomainType} => p`_1)). rewrite !coef_Poly. discriminate.
Qed.
Print Assumptions C27_fav_refuted.
Example C27_ex : @gcd_by_primitive_subresultant ZO Zdiv Zgcd [:: Zneg 1; Z0; Zpos 1] [:: Zpos 1; Zpos 3; Zpos 2] = Some [:: Zpos 1; Zpos 1] /\
  @factor_primitive ZO Zdiv Zgcd [:: Zpos 6; Z0; Zneg 9] = Some (Some (Zpos 3, [:: Zpos 2; Z0; Zneg 3])) /\
  @primitive_squarefree_part ZO Zdiv Zgcd [:: Zpos 3; Z0; Zneg 6; Z0; Zpos 3] = Some [:: Zpos 1; Z0; Zneg 1].
Proof. vm_compute. by []. Qed.
