(* C23, C24, C25: univariate polynomials.  A coefficient vector l (index = power, trailing zeros allowed) stands for the mathcomp
   polynomial `Poly l`; a mathcomp polynomial used as a vector is its normal form (no trailing zero).  mc_ops R is the ring R seen
   through the RingStructure trait (MatSpec). *)
From Coq Require Import List Arith NArith ZArith Bool.
From mathcomp Require Import all_ssreflect all_algebra.
From Coq Require Import Lia.
From Verif Require Import RingSpec RingModel RingProofs RingProps PermModel MatModel MatSpec ZRing MatInst PolyModel PolyModel2 PolyProofs PolyProofs2 PolyProofs3 PolyProofs4 PolyProofs5.
Close Scope rs_scope.
Set Implicit Arguments.
Unset Strict Implicit.
Unset Printing Implicit Defensive.
Import GRing.Theory.
Local Open Scope ring_scope.

(* ------------------------------------------------------------------ C23: arithmetic over any commutative ring *)
Section C23.
Variable R : comRingType.
Notation O := (mc_ops R).
Implicit Types (a b : seq R) (x : R) (n : nat).
Theorem C23_coeff a n : @p_coeff O a n = (Poly a)`_n.
Proof. exact: p_coeffE. Qed.
Theorem C23_equal a b : @p_equal O a b = (Poly a == Poly b).
Proof. exact: p_equalE. Qed.
(* the results of add, mul, mul_scalar, compose, reduce_poly are in normal form *)
Theorem C23_reduce a : @reduce_poly O a = Poly a.
Proof. exact: reduceE. Qed.
Theorem C23_add a b : @p_add O a b = Poly a + Poly b.
Proof. exact: p_addE. Qed.
Theorem C23_mul a b : @p_mul O a b = Poly a * Poly b.
Proof. exact: p_mulE. Qed.
Theorem C23_neg a : Poly (@p_neg O a) = - Poly a.
Proof. exact: p_negE. Qed.
Theorem C23_zero_one_var : [/\ Poly (@p_zero O) = 0, Poly (@p_one O) = 1 & Poly (@p_var O) = 'X].
Proof. split=> //; [exact: Poly1|exact: p_varE]. Qed.
Theorem C23_var_pow x n : Poly (@p_var_pow O n) = 'X^n /\ Poly (@p_constant_var_pow O x n) = x%:P * 'X^n.
Proof. split; [exact: p_var_powE|exact: p_cvpE]. Qed.
Theorem C23_mul_scalar a x : @p_mul_scalar O a x = x *: Poly a.
Proof. exact: p_mul_scalarE. Qed.
Theorem C23_mul_var_pow a n : Poly (@p_mul_var_pow O a n) = Poly a * 'X^n.
Proof. exact: p_mul_var_powE. Qed.
Theorem C23_evaluate a x : @p_evaluate O a x = (Poly a).[x].
Proof. exact: p_evaluateE. Qed.
Theorem C23_compose a b : @p_compose O a b = Poly a \Po Poly b.
Proof. exact: p_composeE. Qed.
Theorem C23_derivative a : Poly (@p_derivative O a) = (Poly a)^`().
Proof. exact: p_derivativeE. Qed.
Theorem C23_degree a : @p_degree O a = (if Poly a == 0 then None else Some (size (Poly a)).-1) /\ @p_num_coeffs O a = size (Poly a).
Proof. split; last exact: p_num_coeffsE. rewrite p_degreeE -size_poly_eq0. by case: (size _). Qed.
Theorem C23_leading_coeff a : @p_leading_coeff O a = (if Poly a == 0 then None else Some (lead_coef (Poly a))).
Proof. exact: p_leading_coeffE. Qed.
Theorem C23_as_constant a : @p_as_constant O a = (if (size (Poly a) <= 1)%N then Some (Poly a)`_0 else None).
Proof. exact: p_as_constantE. Qed.
Theorem C23_is_monic a : @p_is_monic O a = (Poly a \is monic).
Proof. exact: p_is_monicE. Qed.
(* reversed(p) = x^deg(p) p(1/x), if the vector of p has no trailing zero *)
Theorem C23_reversed a : last 1 a != 0 -> Poly (@p_reversed O a) = \poly_(i < size (Poly a)) (Poly a)`_((size (Poly a)).-1 - i).
Proof. move=> H. rewrite p_reversedE (PolyK H). apply/polyP => i. by rewrite !coef_poly. Qed.
(* the polynomial ring meets the contract of RingStructure *)
Theorem C23_ring : ring_laws (poly_ops O).
Proof. exact: poly_ring. Qed.
End C23.
Print Assumptions C23_coeff. Print Assumptions C23_equal. Print Assumptions C23_reduce. Print Assumptions C23_add. Print Assumptions C23_mul.
Print Assumptions C23_neg. Print Assumptions C23_zero_one_var. Print Assumptions C23_var_pow. Print Assumptions C23_mul_scalar.
Print Assumptions C23_mul_var_pow. Print Assumptions C23_evaluate. Print Assumptions C23_compose. Print Assumptions C23_derivative.
Print Assumptions C23_degree. Print Assumptions C23_leading_coeff. Print Assumptions C23_as_constant. Print Assumptions C23_is_monic.
Print Assumptions C23_reversed. Print Assumptions C23_ring.

Notation ZO := (mc_ops Z_comRingType).
(* with a trailing zero `reversed` depends on the representation: equal polynomials have different reversals *)
Theorem C23_reversed_refuted : exists a b : seq Z, @p_equal ZO a b = true /\ @p_equal ZO (@p_reversed ZO a) (@p_reversed ZO b) = false.
Proof. exists [:: Zpos 2; Zpos 1], [:: Zpos 2; Zpos 1; Z0]. vm_compute. by []. Qed.
Print Assumptions C23_reversed_refuted.
Example C23_ex : @p_mul ZO [:: Zpos 1; Zpos 1; Z0] [:: Zneg 1; Zpos 1] = [:: Zneg 1; Z0; Zpos 1] /\
  @p_compose ZO [:: Zpos 1; Z0; Zpos 1] [:: Zpos 2; Zpos 3] = [:: Zpos 5; Zpos 12; Zpos 9] /\
  @p_derivative ZO [:: Zpos 7; Zpos 1; Z0; Zpos 2; Z0] = [:: Zpos 1; Z0; Zpos 6] /\
  @p_degree ZO [:: Zpos 7; Zpos 1; Z0] = Some 1%N.
Proof. vm_compute. by []. Qed.

(* ------------------------------------------------------------------ C24: division over any integral domain *)
Section C24.
Variable R : idomainType.
Notation O := (mc_ops R).
Variable div : div_op O.
Hypothesis D : idom_laws O div.
Implicit Types a b : seq R.
(* try_quorem never panics.  A success is a division with remainder; it reports NotDivisible only if none exists, DivideByZero only for b = 0 *)
Theorem C24_try_quorem a b : exists r, @try_quorem O div a b = Some r /\
  match r with
  | DivideByZero => Poly b = 0
  | DivOk (q, r) => [/\ Poly b != 0, Poly a = Poly q * Poly b + Poly r & (size (Poly r) < size (Poly b))%N]
  | NotDivisible => Poly b != 0 /\ forall Q Rm : {poly R}, (size Rm < size (Poly b))%N -> Poly a <> Q * Poly b + Rm
  end.
Proof. have := try_quorem_ok D a b. case: try_quorem => // r H. by exists r. Qed.
Theorem C24_quorem_unique (A B Q Q' Rm Rm' : {poly R}) : A = Q * B + Rm -> A = Q' * B + Rm' -> (size Rm < size B)%N -> (size Rm' < size B)%N -> Q = Q' /\ Rm = Rm'.
Proof. exact: quorem_uniq. Qed.
(* div decides divisibility; the debug assertion never fails *)
Theorem C24_div a b : exists r, @p_div O div a b = Some r /\
  match r with
  | DivideByZero => Poly b = 0
  | DivOk q => Poly b != 0 /\ Poly a = Poly q * Poly b
  | NotDivisible => Poly b != 0 /\ forall Q, Poly a <> Q * Poly b
  end.
Proof. have := p_div_ok D a b. case: p_div => // r H. by exists r. Qed.
(* a monic divisor always works, over every ring *)
Theorem C24_try_quorem_monic a b : Poly b \is monic -> exists q r, @try_quorem O div a b = Some (DivOk (q, r)).
Proof.
  move=> M. have := try_quorem_ok D a b. case: try_quorem => [[[q r]||]|] //=; first by exists q, r.
  - move=> Z. by move: M; rewrite Z monicE lead_coef0 eq_sym oner_eq0.
  - case=> B0 /(_ (Pdiv.Ring.rdivp (Poly a) (Poly b)) (Pdiv.Ring.rmodp (Poly a) (Poly b))). rewrite Pdiv.Ring.ltn_rmodp B0 => /(_ isT). 
    by rewrite -(Pdiv.RingMonic.rdivp_eq M).
Qed.
(* so the polynomial ring meets the contract of IntegralDomainStructure and FavoriteAssociateStructure; pdiv and pffa are div and
   factor_fav_assoc, which never panic *)
Theorem C24_idom : idom_laws (poly_ops O) (pdiv div) /\ forall a b, @p_div O div a b = Some (pdiv div a b).
Proof. split; [exact: poly_idom|exact: p_div_total]. Qed.
Theorem C24_fav_assoc (ffa : ffa_op O) : ffa_laws O ffa -> ffa_laws (poly_ops O) (pffa div ffa) /\ forall a, @p_factor_fav_assoc O div ffa a = Some (pffa div ffa a).
Proof. move=> F. split; first exact: poly_ffa. move=> a. rewrite /pffa. by case: (pffa_total D F a) => a' [-> _]. Qed.
(* fields *)
Section Field.
Hypothesis FD : forall x y : R, y != 0 -> exists q, div x y = DivOk q.
Theorem C24_quorem_field a b : exists o, @p_quorem O div a b = Some o /\
  match o with
  | None => Poly b = 0
  | Some (q, r) => [/\ Poly b != 0, Poly a = Poly q * Poly b + Poly r & (size (Poly r) < size (Poly b))%N]
  end.
Proof. have := p_quorem_ok D FD a b. case: p_quorem => // r H. by exists r. Qed.
(* F[x] meets the contract of EuclideanDivisionStructure with the degree as norm *)
Theorem C24_euclid : [/\ euclid_laws (poly_ops O) (@p_norm O) (pquorem div), norm_mono (poly_ops O) (@p_norm O) &
  forall a b, @p_quorem O div a b = Some (pquorem div a b)].
Proof. split; [exact: poly_euclid|exact: poly_norm_mono|exact: p_quorem_total]. Qed.
(* gcd and xgcd of F[x] (polynomial.rs l.694-704: euclidean_gcd and euclidean_xgcd of structure.rs): they terminate without panic and
   give a greatest common divisor with Bezout coefficients, in favourite-associate form *)
Theorem C24_gcd_field (ffa : ffa_op O) : ffa_laws O ffa -> forall a b, exists n (g u v : seq R),
  [/\ forall k, le n k -> @euclidean_xgcd (poly_ops O) (pdiv div) (pffa div ffa) (pquorem div) k a b = Some (g, u, v) /\
                          @euclidean_gcd (poly_ops O) (pffa div ffa) (pquorem div) k a b = Some g,
      Poly g = Poly u * Poly a + Poly v * Poly b,
      (exists A, Poly a = A * Poly g) /\ (exists B, Poly b = B * Poly g) &
      forall d A B : {poly R}, Poly a = A * d -> Poly b = B * d -> exists G, Poly g = G * d].
Proof.
  move=> F a b. have [n [g [u [v H]]]] := @C15_euclidean_xgcd _ _ _ _ _ (poly_idom D) (poly_ffa D F) (poly_euclid D FD) a b.
  have [_ [_ [[[A /p_equalP EA] [[B /p_equalP EB] _]] [_ /p_equalP HB]]]] := H n (le_n n).
  have EB' : Poly g = Poly u * Poly a + Poly v * Poly b by rewrite HB /= p_addE Poly_polyseq !p_mulE !Poly_polyseq.
  exists n, g, u, v. split=> //.
  - move=> k Hk. by have [H1 [H2 _]] := H k Hk.
  - split; [exists (Poly A)|exists (Poly B)]; by rewrite ?EA ?EB /= p_mulE Poly_polyseq mulrC.
  - move=> d A' B' Ea Eb. exists (Poly u * A' + Poly v * B'). by rewrite EB' Ea Eb mulrDl !mulrA.
Qed.
End Field.
End C24.
Print Assumptions C24_try_quorem. Print Assumptions C24_quorem_unique. Print Assumptions C24_div. Print Assumptions C24_try_quorem_monic.
Print Assumptions C24_idom. Print Assumptions C24_fav_assoc. Print Assumptions C24_quorem_field. Print Assumptions C24_euclid. Print Assumptions C24_gcd_field.

(* instances: Z[x]; F[x] for every field *)
Definition C24_int_div := @C24_div Z_idomainType Zdiv Zidom.
Lemma Fdiv_total (F : fieldType) (x y : F) : y != 0 -> exists q, Fdiv x y = DivOk q.
Proof. move=> H. exists (x / y). by rewrite /Fdiv (negbTE H). Qed.
Definition C24_field_quorem (F : fieldType) := @C24_quorem_field [idomainType of F] (@Fdiv F) (Fidom F) (@Fdiv_total F).
Definition C24_field_gcd (F : fieldType) := @C24_gcd_field [idomainType of F] (@Fdiv F) (Fidom F) (@Fdiv_total F) (@Fffa F) (Fffa_ok F).
Example C24_ex : @try_quorem ZO Zdiv [:: Zpos 1; Zpos 2; Zpos 4; Z0] [:: Zpos 1; Zpos 2] = Some (DivOk ([:: Z0; Zpos 2], [:: Zpos 1])) /\
  @try_quorem ZO Zdiv [:: Zpos 1; Zpos 3] [:: Zpos 1; Zpos 2] = Some NotDivisible /\
  @p_div ZO Zdiv [:: Zneg 1; Z0; Zpos 1] [:: Zpos 1; Zpos 1; Z0] = Some (DivOk [:: Zneg 1; Zpos 1]) /\
  @p_div ZO Zdiv [:: Zpos 1] [:: Z0] = Some DivideByZero.
Proof. vm_compute. by []. Qed.

(* ------------------------------------------------------------------ C25: interpolation *)
Section C25.
Variable R : idomainType.
Notation O := (mc_ops R).
Implicit Types pts : seq (R * R).
(* f passes through all the points *)
Definition interpolates (f : {poly R}) pts : Prop := forall p, p \in pts -> f.[p.1] = p.2.
Definition distinct_abscissae pts : Prop := uniq [seq p.1 | p <- pts].
Lemma interpolatesE f pts : interpolates f pts <-> forall i, (i < size pts)%N -> f.[(nth (0, 0) pts i).1] = (nth (0, 0) pts i).2.
Proof.
  split=> [H i Hi|H p Hp]; first by apply: H; exact: mem_nth.
  move: (H (index p pts)). by rewrite nth_index // index_mem; apply.
Qed.
Lemma distinctE pts : distinct_xs pts <-> distinct_abscissae pts.
Proof.
  split; first exact: xs_uniq. move=> /(uniqP 0) H i j Hi Hj E. apply: H; rewrite ?inE ?size_map //. by rewrite !(nth_map (0, 0)).
Qed.
Lemma not_interp pts f : (exists2 i, (i < size pts)%N & f.[(nth (0, 0) pts i).1] <> (nth (0, 0) pts i).2) -> ~ interpolates f pts.
Proof. move=> [i Hi E] /interpolatesE H. exact: E (H i Hi). Qed.
(* panics exactly on repeated abscissae; otherwise decides whether any polynomial over the ring interpolates, and finds the one of least degree *)
Theorem C25_lagrange (div : div_op O) : idom_laws O div -> forall pts,
  match @interpolate_by_lagrange_basis O div pts with
  | None => ~ distinct_abscissae pts
  | Some (Some p) => distinct_abscissae pts /\ interpolates (Poly p) pts /\ (size (Poly p) <= size pts)%N
  | Some None => distinct_abscissae pts /\ forall f, ~ interpolates f pts
  end.
Proof.
  move=> D pts. have := lagrange_ok D pts. case: interpolate_by_lagrange_basis => [[p|]|].
  - by move=> [/distinctE H1 [H2 /interpolatesE H3]].
  - move=> [/distinctE H1 H2]. split=> // f. apply: not_interp. exact: H2.
  - by move=> H /distinctE.
Qed.
(* the interpolating polynomial with at most as many coefficients as points is unique *)
Theorem C25_unique pts f g : distinct_abscissae pts -> interpolates f pts -> interpolates g pts -> (size f <= size pts)%N -> (size g <= size pts)%N -> f = g.
Proof.
  move=> /distinctE H /interpolatesE Hf /interpolatesE Hg Sf Sg. apply/eqP. rewrite -subr_eq0. apply/eqP. apply: (roots_eq0 H).
  - apply: leq_trans (size_add _ _) _. by rewrite size_opp geq_max Sf Sg.
  - move=> i Hi. by rewrite hornerD hornerN Hf // Hg // subrr.
Qed.
(* through the linear system (Bezout domains): never panics, even for repeated abscissae *)
Theorem C25_linear_system (div : div_op O) ffa xgcd : @bezout_laws R div ffa xgcd -> forall pts,
  exists o, @interpolate_by_linear_system O div ffa xgcd pts = Some o /\
  match o with
  | Some p => interpolates (Poly p) pts /\ size p = size pts
  | None => forall f, ~ interpolates f pts
  end.
Proof.
  move=> BZ pts. have [o [E H]] := linear_system_ok BZ pts. exists o. split=> //. case: o H {E} => [p [H1 /interpolatesE H2]|H] //.
  move=> f. apply: not_interp. exact: H.
Qed.
End C25.
Print Assumptions C25_lagrange. Print Assumptions C25_unique. Print Assumptions C25_linear_system.
Definition C25_int_lagrange := @C25_lagrange Z_idomainType Zdiv Zidom.
Definition C25_int_linear_system := @C25_linear_system Z_idomainType Zdiv Zffa Zxgcd Zbezout.
Example C25_ex : @interpolate_by_lagrange_basis ZO Zdiv [:: (Zpos 1, Zpos 3); (Zpos 2, Zpos 1); (Zpos 3, Zneg 3)] = Some (Some [:: Zpos 3; Zpos 1; Zneg 1]) /\
  @interpolate_by_linear_system ZO Zdiv Zffa Zxgcd [:: (Zpos 1, Zpos 3); (Zpos 2, Zpos 1); (Zpos 3, Zneg 3)] = Some (Some [:: Zpos 3; Zpos 1; Zneg 1]) /\
  @interpolate_by_lagrange_basis ZO Zdiv [:: (Z0, Z0); (Zpos 2, Zpos 1)] = Some None /\
  @interpolate_by_lagrange_basis ZO Zdiv [:: (Z0, Z0); (Z0, Zpos 1)] = None.
Proof. vm_compute. by []. Qed.
