(* C66: Berlekamp's algorithm over a finite field. *)
From Coq Require Import List Arith NArith Bool.
From mathcomp Require Import all_ssreflect all_fingroup all_algebra all_solvable all_field separable.
From mathcomp Require Import zify.
From Coq Require Import Lia.
From Verif Require Import RingSpec RingModel RingProofs FactoredSpec FactoredModel FactoredProofs PermModel MatModel MatSpec MatInst LatModel PolyModel PolyProofs PolyProofs2 PolyProofs3 PolyProofs11 PolyProofs12 PolyProps FacModel FacProofs FacProofs2 FfModel FfSpec FfProofs FfProofs2 FfProofs3 FfProofs4 FfProofs5 FfProps.
Close Scope rs_scope.
Set Implicit Arguments.
Unset Strict Implicit.
Unset Printing Implicit Defensive.
Import GRing.Theory.
Local Open Scope ring_scope.

Section Irf.
Variable F : finFieldType.
Notation R := [idomainType of F].
Notation O := (mc_ops R).
Notation P := (poly_ops O).
Variable div : div_op O.
Hypothesis D : idom_laws O div.
Hypothesis FD : forall x y : R, y != 0 -> exists q, div x y = DivOk q.
Variable ffa : ffa_op O.
Hypothesis FA : ffa_laws O ffa.
Lemma rprime_irr (f : seq F) : @rprime P f -> irreducible_poly (Poly f).
Proof.
  case=> Hz [Hu Hp]. have f0 : Poly f != 0 by apply/eqP => Z; move/negP: Hz; apply; apply/p_equalP; rewrite Z.
  have f1 : (1 < size (Poly f))%N. { rewrite ltnNge. apply/negP => /size1_polyC E. apply: Hu. apply/punitE. exists (Poly f)`_0 => //. rewrite unitfE. apply/eqP => Z. move: f0. by rewrite E Z polyC0 eqxx. }
  split=> // B B1 /dvdpP [A E]. have [|[G /p_equalP]|[G /p_equalP]] := Hp (polyseq A : seq F) (polyseq B : seq F).
  - exists [:: 1]. apply/p_equalP. by rewrite !pmulE Poly1 polyC1 mulr1 !polyseqK.
  - rewrite pmulE polyseqK => EA. exfalso. have A0 : A != 0 by apply/eqP => Z; move: f0; rewrite E Z mul0r eqxx.
    have : Poly G * B = 1. { apply: (mulfI f0). by rewrite mulrA -EA -E mulr1. } move=> E1. have : B %| 1 by apply/dvdpP; exists (Poly G). rewrite dvdp1 => S2. by rewrite S2 in B1.
  - rewrite pmulE polyseqK => EB. rewrite /eqp. apply/andP. split; [by apply/dvdpP; exists A|by rewrite EB dvdp_mulr].
Qed.
Lemma okf_irf (r : factored P) (A : {poly F}) : okf div ffa r -> Poly (@expand P r) = A ->
  Poly (f_unit r : seq F) = (lead_coef A)%:P /\ irreducible_factorization A (lead_coef A) (factor_list (f_factors r)).
Proof.
  move=> Hr EA. have [E1 E2] := okf_lead D FD FA Hr. rewrite EA in E1 E2. split=> //. have [Hu [V1 V2] V3] := Hr. split.
  - split; last by rewrite {1}E2 big_map. apply/eqP => Z. case/punitE: Hu => u U Eu. rewrite E1 Z in Eu. have := congr1 (fun B : {poly F} => B`_0) Eu. rewrite !coefC /= => E0. by rewrite -E0 unitr0 in U.
  - move=> x /mapP [y Hy ->]. have Hy' : List.In y (f_factors r) by apply/(MatProofs4.in_mem y). move/List.Forall_forall: (V1) => /(_ _ Hy') [H1 H2]. split=> /=; [exact: (okf_monic D FD FA Hr)|exact: rprime_irr|]. move: H2. clear. move: (y.2) => k. lia.
  - rewrite -map_comp. elim: V2 => [|x l Hx Hl IH] //=. apply/andP. split=> //. apply/negP => /mapP [y Hy E]. move/(MatProofs4.in_mem y): Hy => Hy. move/List.Forall_forall: Hx => /(_ _ Hy). apply. exists [:: 1]. split; last by apply/p_equalP; rewrite pmulE Poly1 polyC1 mul1r. apply/punitE. exists 1; [exact: unitr1|exact: Poly1].
Qed.
(* over a finite field squarefree polynomials are separable *)
Variable p : nat.
Hypothesis Cp : p \in [char F].
Lemma sqf_sep (A : {poly F}) : A \is monic -> squarefree A -> coprimep A A^`().
Proof.
  move=> M H. have [L [HL IL EL]] := monic_decomp Cp M. have E1 x : x \in L -> x.2 = 1%N.
  { move=> Hx. have := good_pos HL Hx. case E: x.2 => [|[|k]] // _. exfalso. have [[S1 _] _] := IL x Hx. have : x.1 * x.1 %| A. { rewrite EL. apply: dvdp_trans (mem_dvdF HL Hx). rewrite E !exprS mulrA. exact: dvdp_mulr. } move/H. by rewrite leqNgt S1. }
  have -> : A = Pi [seq x <- L | x.2 == 1%N]. { rewrite EL (_ : [seq x <- L | x.2 == 1%N] = L); last by apply/all_filterP/allP => x /E1 ->. elim: (L) E1 => [|x l IH] //= E1. rewrite IH ?(E1 x (mem_head _ _)) ?expr1 // => y Hy. apply: E1. by rewrite inE Hy orbT. }
  apply: Pi_at_sqfree => //.
Qed.
End Irf.

Section C66.
Variable F : finFieldType.
Notation R := [idomainType of F].
Notation O := (mc_ops R).
Notation P := (poly_ops O).
Variables (div : div_op O) (ffa : ffa_op O) (xgcd : R -> R -> R * R * R).
Hypothesis BZ : bezout_laws div ffa xgcd.
Hypothesis FD : forall x y : R, y != 0 -> exists q, div x y = DivOk q.
(* all_elements(): every element once *)
Variable elems : seq F.
Hypothesis EL : perm_eq elems (enum F).
Let D : idom_laws O div := bz_idom BZ.
Let FA : ffa_laws O ffa := bz_ffa BZ.
Implicit Types (f g h : seq F) (A B : {poly F}).

Lemma qE : length elems = #|F|.
Proof. by rewrite lengthE (perm_size EL) cardE. Qed.
Lemma frobq A B : (A + B) ^+ #|F| = A ^+ #|F| + B ^+ #|F|.
Proof.
  have [p _ Cp] := finCharP F. have Cq : p \in [char {poly F}] by exact: (rmorph_char [rmorphism of (@polyC F)]).
  have [n ->] : exists n, #|F| = (p ^ n)%N by eexists; exact: (card_primeChar Cp). elim: n => [|n IH]; first by rewrite !expn0 !expr1. by rewrite expnSr !exprM IH -[LHS]/(Frobenius_aut Cq _) rmorphD.
Qed.
(* one step: a nontrivial factorisation of a separable polynomial, or a proof that there is none *)
Theorem C66_find_factor f : (1 < size (Poly f))%N -> squarefree (Poly f) ->
  exists r, @find_factor_by_berlekamps_algorithm O div ffa xgcd elems f = Some r /\ match r with
    | FFComposite g h => [/\ Poly f = Poly (g : seq F) * Poly (h : seq F), (1 < size (Poly (g : seq F)))%N & (1 < size (Poly (h : seq F)))%N]
    | FFIrreducible => irreducible_poly (Poly f) end.
Proof.
  move=> S1 Hs. have [p _ Cp] := finCharP F. have f0 : Poly f != 0 by rewrite -size_poly_gt0; apply: ltn_trans S1.
  have C : coprimep (Poly f) (Poly f)^`().
  { have := @sqf_sep F p Cp ((lead_coef (Poly f))^-1 *: Poly f) _ _. rewrite derivZ coprimepZl ?coprimepZr ?invr_eq0 ?lead_coef_eq0 //. apply; first by rewrite monicE lead_coefZ mulVf // lead_coef_eq0.
    move=> B. rewrite dvdpZr ?invr_eq0 ?lead_coef_eq0 //. exact: Hs. }
  have [|||r [Er Hr]] := @berl_ok R div ffa xgcd BZ FD elems _ _ _ f S1 C.
  - move=> x. apply/(MatProofs4.in_mem x). by rewrite (perm_mem EL) mem_enum.
  - move=> a. by rewrite qE expf_card.
  - move=> A B. rewrite qE. exact: frobq.
  - exists r. split=> //. case: r Hr {Er} => // Hi. split=> // B B1 /dvdpP [A E]. case: (Hi A B E) => H.
    + have A0 : A != 0 by apply/eqP => Z; move: f0; rewrite E Z mul0r eqxx. have /eqP SA : size A == 1%N by rewrite eqn_leq H size_poly_gt0. rewrite E eqp_sym -{2}[B]mul1r. apply: eqp_mulr. by rewrite -size_poly_eq1 SA.
    + exfalso. have B0 : B != 0 by apply/eqP => Z; move: f0; rewrite E Z mulr0 eqxx. by rewrite eqn_leq H size_poly_gt0 B0 in B1.
Qed.
(* from any squarefree factorisation to the irreducible one *)
Theorem C66_berlekamp (s : sqfree_factored O) A : squarefree_factorization A (s_unit s) (factor_list (s_factors s)) ->
  exists r, [/\ @factorize_berlekamps O div ffa xgcd elems s = Some r, Poly (f_unit r : seq F) = (s_unit s)%:P &
    irreducible_factorization A (s_unit s) (factor_list (f_factors r))].
Proof.
  case=> [[Hu EA] HM HS _ [_ HE]]. have [p _ Cp] := finCharP F.
  have Hff f : coprimep (Poly f) (Poly f)^`() -> exists r, [/\ @factorize_by_find_factor P (pdivr div) (pffar div ffa) (length f + 1)%coq_nat (@find_factor_by_berlekamps_algorithm O div ffa xgcd elems) f = Some r, okf div ffa r & Poly (@expand P r) = Poly f].
  { apply: (@fbff_sep R div D FD ffa FA) => g S1 C. apply: (@berl_ok R div ffa xgcd BZ FD elems) => //.
    - move=> x. apply/(MatProofs4.in_mem x). by rewrite (perm_mem EL) mem_enum.
    - move=> a. by rewrite qE expf_card.
    - move=> B1 B2. rewrite qE. exact: frobq. }
  have Hl x : x \in s_factors s -> [/\ Poly x.1 \is monic, coprimep (Poly x.1) (Poly x.1)^`() & (0 < N.to_nat x.2)%N].
  { move=> Hx. have Hx' : (Poly x.1, N.to_nat x.2) \in factor_list (s_factors s) by apply/mapP; exists x. have [M _] := HM _ Hx'. split=> //; [|exact: HE _ Hx']. apply: (sqf_sep Cp) => //. exact: HS _ Hx'. }
  have H0 : okf div ffa (@Factored P [:: s_unit s] [::]). { apply: (@okf_unit R div ffa [:: s_unit s]). apply/punitE. exists (s_unit s); [by rewrite unitfE|exact: Poly1]. }
  have [r [E1 E2 E3]] := @fold_berl R div D FD ffa FA _ Hff (s_factors s) _ Hl H0. exists r.
  have EA' : Poly (@expand P r) = A. { rewrite E3 EA (exE D) Poly1 big_map [powers_prod _]/= Poly1 polyC1 mulr1 mul_polyC. by []. }
  have [H1 H2] := okf_irf D FD FA E2 EA'. have Hlc : lead_coef A = s_unit s. { rewrite EA lead_coefZ (monicP _) ?mulr1 // big_seq. apply: monic_prod => x /HM [M _]. exact: monic_exp. }
  rewrite Hlc in H1 H2. split=> //.
Qed.
(* monic, squarefree and Berlekamp together: the whole factorisation of a polynomial over a prime field *)
Theorem C66_factor_prime_field f : prime #|F| -> Poly f != 0 ->
  exists m s r, [/\ @factorize_monic O div ffa f = Some (Some m), @factorize_squarefree_top O div ffa (N.of_nat #|F|) m = Some s, @factorize_berlekamps O div ffa xgcd elems s = Some r,
    Poly (f_unit r : seq F) = (lead_coef (Poly f))%:P & irreducible_factorization (Poly f) (lead_coef (Poly f)) (factor_list (f_factors r))].
Proof.
  move=> Hp Hf. have [p p_pr Cp] := finCharP F. have Ep : #|F| = p. { have [n En] : exists n, #|F| = (p ^ n)%N by eexists; exact: (card_primeChar Cp). apply/eqP. rewrite eq_sym -dvdn_prime2 // En dvdn_exp //. rewrite En in Hp. by case: (n) Hp. }
  have [m [s [E1 E2 E3]]] := C65_squarefree_prime_field D FD FA Cp Ep Hf. have [r [E4 E5 E6]] := C66_berlekamp E3. exists m, s, r. rewrite Ep.
  have Hlc : s_unit s = lead_coef (Poly f). { case: E3 => [[_ ->] HM _ _ _]. rewrite lead_coefZ (monicP _) ?mulr1 // big_seq. apply: monic_prod => x /HM [M _]. exact: monic_exp. }
  by rewrite -Hlc.
Qed.
End C66.
Print Assumptions C66_find_factor. Print Assumptions C66_berlekamp. Print Assumptions C66_factor_prime_field.
(* the hypotheses hold for the fields 'F_p *)
Definition C66_Fp_instance (p : nat) (Hp : prime p) :=
  @C66_factor_prime_field [finFieldType of 'F_p] (@Fdiv _) (@Fffa _) (@Fxgcd _) (Fbezout _) (@Fdiv_total _) (enum [finFieldType of 'F_p]) (perm_refl _).
(* and the algorithms run: over the field with four elements x^4 + x is the product of the four x + c, and x^2 + x + b is irreducible *)
Definition F4_xgcd (a b : F4) : F4 * F4 * F4 :=
  match euclidean_xgcd (R := F4_ops) F4_div F4_ffa (field_quorem (R := F4_ops) F4_div) 3 a b with Some r => r | None => (Zero, Zero, Zero) end.
Definition F4_all : seq F4 := [:: Zero; One; Alpha; Beta].
Example C66_ex : let f := [:: Zero; One; Zero; Zero; One] in
  @factorize_berlekamps F4_ops F4_div F4_ffa F4_xgcd F4_all (@SqfreeFactored F4_ops Beta [:: (f, 1%num); ([:: Beta; One; One], 2%num)]) =
  Some (@Factored (poly_ops F4_ops) [:: Beta] [:: ([:: Zero; One], 1%num); ([:: One; One], 1%num); ([:: Beta; One], 1%num); ([:: Alpha; One], 1%num); ([:: Beta; One; One], 2%num)]).
Proof. vm_compute. by []. Qed.
