(* C73: characteristic and minimal polynomials (matrix.rs l.1420-1475, polynomial/quotient.rs l.68-72). *)
From Coq Require Import List Arith NArith ZArith QArith.
From mathcomp Require Import all_ssreflect all_algebra.
From Coq Require Import Lia.
From Verif Require Import RingSpec RingModel PermModel MatModel MatSpec MatInst MatViewSpec MatProofs MatProofs2 MatProofs7 PolyModel PolySpec PolyProofs HenselModel FofProps QpModel QpProofs QpProofs2 CharModel CharProofs CharProofs2.
Close Scope rs_scope.
Set Implicit Arguments.
Unset Strict Implicit.
Unset Printing Implicit Defensive.
Import GRing.Theory.
Close Scope Q_scope.
Local Open Scope ring_scope.

Section C73.
Variable F : fieldType.
Notation K := (mc_ops [idomainType of F]).
Notation X := [idomainType of {poly F}].
Notation O := (mc_ops X).
(* the operations of the ring of polynomials: any implementation that meets the contracts and makes favourite associates monic *)
Variables (div : div_op O) (ffa : ffa_op O) (xgcd : {poly F} -> {poly F} -> {poly F} * {poly F} * {poly F}).
Variables (norm : {poly F} -> option N) (quorem : {poly F} -> {poly F} -> option ({poly F} * {poly F})).
Hypothesis BZ : @bezout_laws X div ffa xgcd.
Hypothesis EU : euclid_laws O norm quorem.
Hypothesis NM : norm_mono O norm.
Hypothesis MO : forall a : {poly F}, a != 0 -> snd (ffa a) \is monic.
Notation minp := (@minimal_polynomial K O polyC 'X div ffa xgcd).
Notation charp := (@characteristic_polynomial K O polyC 'X div ffa xgcd).
Implicit Types m : matrix (T K).

(* every size: what characteristic_polynomial returns is det(x - A) *)
Theorem C73_characteristic_partial n m (A : 'M[F]_n.+1) ifuel r : represents m A -> charp ifuel m = Some r -> r = Ok (\det ('X%:M - map_mx polyC A)).
Proof. move=> Hm. exact: (charp_ok BZ MO Hm). Qed.
(* at most two rows: both are returned *)
Theorem C73_small n m (A : 'M[F]_n.+1) : represents m A -> (n.+1 <= 2)%N -> exists f0, forall ifuel, (f0 <= ifuel)%N -> exists mu,
  [/\ charp ifuel m = Some (Ok (\det ('X%:M - map_mx polyC A))), minp ifuel m = Some (Ok mu), mu \is monic &
      forall p : {poly F}, (mu %| p) <-> horner_mx A p = 0].
Proof.
  move=> Hm H2. have [f0 H] := small_ok BZ EU NM MO Hm H2. exists f0 => ifuel /H [H3 H4]. exists (mxminpoly A). split=> //; first exact: mxminpoly_monic.
  move=> p. by split=> /mxminpoly_minP.
Qed.
(* every size: if the diagonal of the Smith form that is computed on the way divides along, the minimal polynomial is right *)
Theorem C73_minimal_partial n m (A : 'M[F]_n.+1) ifuel pm u s v k (S : 'M[{poly F}]_n.+1) : represents m A ->
  @presentation_matrix K O polyC 'X m = Some (Ok pm) -> smith_algorithm div ffa xgcd ifuel pm = Some (u, s, v, k) -> represents s S ->
  (forall i i' : 'I_n.+1, i' = i.+1 :> nat -> S i i %| S i' i') ->
  exists mu, [/\ minp ifuel m = Some (Ok mu), mu \is monic & forall p : {poly F}, (mu %| p) <-> horner_mx A p = 0].
Proof.
  move=> Hm Ep Es Rs CH. exists (mxminpoly A). split; [exact: (minp_chain BZ MO Hm Ep Es Rs CH)|exact: mxminpoly_monic|].
  move=> p. by split=> /mxminpoly_minP.
Qed.
Theorem C73_not_square m ifuel : rows m <> cols m -> charp ifuel m = Some (Err NotSquare) /\ minp ifuel m = Some (Err NotSquare).
Proof. move=> H. rewrite /characteristic_polynomial /minimal_polynomial /presentation_matrix eqb_nat. by case: eqP. Qed.
(* min_poly in K[x]/(m), for moduli of degree 1 and 2 (quadratic number fields) *)
Lemma Mx_comp (md a : {poly F}) n : size md = n.+2 -> forall p : {poly F}, horner_mx (Mx md n.+1 a) p = Mx md n.+1 (p \Po a).
Proof.
  move=> Sm. have M0 : md != 0 by rewrite -size_poly_gt0 Sm. have E : (size (Poly md)).-1 = n.+1 by rewrite polyseqK Sm.
  have P0 : Poly md != 0 by rewrite polyseqK.
  have H1 (x y : {poly F}) : Mx md n.+1 (x * y) = Mx md n.+1 x *m Mx md n.+1 y by have := MmxM P0 x y; rewrite /Mmx -/(Mx _ _ _) -/(Mx _ _ _) -/(Mx _ _ _) E polyseqK.
  have H2 (x y : {poly F}) : Mx md n.+1 (x + y) = Mx md n.+1 x + Mx md n.+1 y by have := MmxD md x y; rewrite /Mmx -/(Mx _ _ _) -/(Mx _ _ _) -/(Mx _ _ _) E polyseqK.
  have H3 (c : F) : Mx md n.+1 c%:P = c%:M by have := MmxC P0 c; rewrite /Mmx -/(Mx _ _ _) E polyseqK.
  elim/poly_ind => [|p c IH]; first by rewrite rmorph0 comp_poly0 -[0 : {poly F}]polyC0 H3 raddf0.
  by rewrite rmorphD rmorphM /= horner_mx_X horner_mx_C IH comp_poly_MXaddC H2 H1 H3.
Qed.
Theorem C73_min_poly_partial (m a : seq F) n : size (Poly m) = n.+2 -> (n.+1 <= 2)%N -> exists f0, forall ifuel, (f0 <= ifuel)%N -> exists mu,
  [/\ @q_min_poly K O polyC 'X div ffa xgcd (@Fdiv F) m ifuel a = Some mu, mu \is monic & forall p : {poly F}, (mu %| p) <-> (p \Po Poly a) %% Poly m = 0].
Proof.
  move=> Sm H2. have P0 : Poly m != 0 by rewrite -size_poly_gt0 Sm. have E : (size (Poly m)).-1 = n.+1 by rewrite Sm.
  have [|x [Ex Rx]] := colmx_ok P0 a; first by rewrite E.
  have {}Rx : represents x (Mx (Poly m) n.+1 (Poly a)) by move: Rx; rewrite /Mmx -/(Mx _ _ _) E.
  have [f0 H] := C73_small Rx H2. exists f0 => ifuel /H [mu [_ H3 H4 H5]]. exists mu. split=> //; first by rewrite /q_min_poly Ex; cbn [obind]; rewrite H3.
  move=> p. rewrite H5 (Mx_comp _ Sm). split=> [Z|Z].
  - apply/polyP => i. rewrite coef0. have [Hi|Hi] := ltnP i n.+1.
    + move/matrixP/(_ (Ordinal Hi) ord0): Z. by rewrite !mxE expr0 mulr1.
    + rewrite nth_default // (leq_trans _ Hi) //. by rewrite -ltnS -Sm ltn_modp.
  - apply/matrixP => i j. rewrite !mxE mulrC -modp_mul Z mulr0 mod0p coef0 //.
Qed.
End C73.
Print Assumptions C73_characteristic_partial. Print Assumptions C73_small. Print Assumptions C73_minimal_partial. Print Assumptions C73_not_square. Print Assumptions C73_min_poly_partial.
(* the contracts are met by K[x] for every field K *)
Theorem C73_contracts (F : fieldType) : [/\ @bezout_laws [idomainType of {poly F}] (@Pdiv F) (@Pffa F) (@Pxgcd F), euclid_laws (mc_ops [idomainType of {poly F}]) (@Pnorm F) (@Pquorem F),
  norm_mono (mc_ops [idomainType of {poly F}]) (@Pnorm F) & forall a : {poly F}, a != 0 -> snd (@Pffa F a) \is monic].
Proof. split; [exact: Pbezout|exact: Peuclid|exact: Pmono|exact: Pmonic]. Qed.
Corollary C73_field (F : fieldType) n m (A : 'M[F]_n.+1) : represents m A -> (n.+1 <= 2)%N -> exists f0, forall ifuel, (f0 <= ifuel)%N -> exists mu,
  [/\ @characteristic_polynomial (mc_ops [idomainType of F]) (mc_ops [idomainType of {poly F}]) polyC 'X (@Pdiv F) (@Pffa F) (@Pxgcd F) ifuel m = Some (Ok (\det ('X%:M - map_mx polyC A))),
      @minimal_polynomial (mc_ops [idomainType of F]) (mc_ops [idomainType of {poly F}]) polyC 'X (@Pdiv F) (@Pffa F) (@Pxgcd F) ifuel m = Some (Ok mu), mu \is monic &
      forall p : {poly F}, (mu %| p) <-> horner_mx A p = 0].
Proof. exact: (C73_small (@Pbezout F) (@Peuclid F) (@Pmono F) (@Pmonic F)). Qed.
Print Assumptions C73_contracts. Print Assumptions C73_field.

(* ------------------------------------------------------------------ computing with rational coefficients: lists of reduced fractions *)
Definition QP : ring_ops := @poly_ops QO.
Definition Qxg (a b : list Q) : list Q * list Q * list Q := match @p_xgcd QO Qdiv_op a b with Some r => r | None => (nil, nil, nil) end.
Definition qz (z : Z) : Q := Qmake z 1%positive.
Definition Qcharp := @characteristic_polynomial QO QP (fun c => [:: c]) [:: qz Z0; qz (Zpos 1)] (@pdivT QO Qdiv_op) (@pffaT QO Qdiv_op (@field_ffa QO)) Qxg.
Definition Qminp := @minimal_polynomial QO QP (fun c => [:: c]) [:: qz Z0; qz (Zpos 1)] (@pdivT QO Qdiv_op) (@pffaT QO Qdiv_op (@field_ffa QO)) Qxg.
Definition qmat n (l : list Z) : matrix Q := @Mat Q n n false false false (List.map qz l).
(* both panic on [[0,0,0],[0,0,1],[0,0,-1]], whose characteristic polynomial is x^3 + x^2 and whose minimal polynomial is x^2 + x: an exact division
   of the Smith algorithm fails *)
Theorem C73_panic_refuted : exists m : matrix Q, forall ifuel, Qcharp ifuel m = None /\ Qminp ifuel m = None.
Proof. exists (qmat 3 [:: Z0; Z0; Z0; Z0; Z0; Zpos 1; Z0; Z0; Zneg 1]). move=> [|[|[|f]]]; split; vm_compute; by []. Qed.
Print Assumptions C73_panic_refuted.
(* [[1,2],[3,4]]: x^2 - 5x - 2; the identity: (x-1)^2 and x - 1; a 3 x 3 matrix with its minimal polynomial (x-1)(x-2) *)
Example C73_ex : [/\ Qcharp 9 (qmat 2 [:: Zpos 1; Zpos 2; Zpos 3; Zpos 4]) = Some (Ok [:: qz (Zneg 2); qz (Zneg 5); qz (Zpos 1)]),
  Qcharp 9 (qmat 2 [:: Zpos 1; Z0; Z0; Zpos 1]) = Some (Ok [:: qz (Zpos 1); qz (Zneg 2); qz (Zpos 1)]),
  Qminp 9 (qmat 2 [:: Zpos 1; Z0; Z0; Zpos 1]) = Some (Ok [:: qz (Zneg 1); qz (Zpos 1)]) &
  Qminp 9 (qmat 3 [:: Zpos 1; Z0; Z0; Z0; Zpos 2; Z0; Z0; Z0; Zpos 1]) = Some (Ok [:: qz (Zpos 2); qz (Zneg 3); qz (Zpos 1)])].
Proof. split; by vm_compute. Qed.
