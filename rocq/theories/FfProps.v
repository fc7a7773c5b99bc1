(* C65: monic and squarefree factorisation of polynomials over a finite field. *)
From Coq Require Import List Arith NArith Bool.
From mathcomp Require Import all_ssreflect all_fingroup all_algebra all_solvable all_field separable.
From mathcomp Require Import zify.
From Coq Require Import Lia.
From Verif Require Import RingSpec RingModel RingProofs FactoredSpec FactoredModel FactoredProofs PermModel MatModel MatSpec MatInst LatModel PolyModel PolyProofs PolyProofs2 PolyProofs3 PolyProofs11 PolyProofs12 PolyProps FacModel FacProofs FacProofs2 FfModel FfSpec FfProofs FfProofs2 FfProofs3.
Close Scope rs_scope.
Set Implicit Arguments.
Unset Strict Implicit.
Unset Printing Implicit Defensive.
Import GRing.Theory.
Local Open Scope ring_scope.

Section C65.
Variable F : finFieldType.
Notation R := [idomainType of F].
Notation O := (mc_ops R).
Variable div : div_op O.
Hypothesis D : idom_laws O div.
Hypothesis FD : forall x y : R, y != 0 -> exists q, div x y = DivOk q.
Variable ffa : ffa_op O.
Hypothesis FA : ffa_laws O ffa.
Variable p : nat.
Hypothesis Cp : p \in [char F].
Implicit Types (f : seq F) (A B : {poly F}).
(* the factors returned, as polynomials and numbers *)
Definition factor_list (fs : seq (seq F * N)) : seq ({poly F} * nat) := [seq (Poly x.1, N.to_nat x.2) | x <- fs].

Theorem C65_factorize_monic f :
  (Poly f = 0 -> @factorize_monic O div ffa f = Some None) /\
  (Poly f != 0 -> exists m, [/\ @factorize_monic O div ffa f = Some (Some m), m_unit m != 0, Poly (m_monic m) \is monic & Poly f = m_unit m *: Poly (m_monic m)]).
Proof.
  have E := factorize_monic_ok D FD FA f. split=> H.
  - by rewrite E; case: eqP => // Z; case: Z.
  - have [f' [E1 E2]] := pffa_field D FD FA H. move: E. rewrite E1 (negPf H) => E. eexists. split; first exact: E.
    + by rewrite /= lead_coef_eq0.
    + cbn [m_monic]. rewrite E2. exact: (monicize D FD).
    + cbn [m_monic m_unit]. by rewrite E2 scalerA divff ?lead_coef_eq0 // scale1r.
Qed.
Lemma sqf_of_sep A : coprimep A A^`() -> squarefree A.
Proof.
  move=> H B /dvdpP [Q E]. have HB : B %| A by rewrite E mulrA dvdp_mull.
  have HB' : B %| A^`(). { rewrite E !derivM. apply: dvdp_add; first by rewrite mulrA dvdp_mull. apply: dvdp_mull. by apply: dvdp_add; [exact: dvdp_mull|exact: dvdp_mulr]. }
  have := coprimepP _ _ H B HB HB'. rewrite -size_poly_eq1 => /eqP ->. done.
Qed.
Lemma dec_spec (L : seq ({poly F} * nat)) ks fs A u : good L -> monics L -> @dec R L ks fs -> uniq ks -> (forall k, (k \in ks) = ([seq x <- L | x.2 == k] != [::])) -> u != 0 -> A = u *: Fp L ->
  squarefree_factorization A u (factor_list fs).
Proof.
  move=> HL ML Hd Hu Hk Hu0 EA. rewrite /factor_list Hd.
  have EF : Fp L = \prod_(k <- ks) Pi [seq x <- L | x.2 == k] ^+ k.
  { have main : forall l : seq nat, uniq l -> Fp [seq x <- L | x.2 \in l] = \prod_(k <- l) Pi [seq x <- L | x.2 == k] ^+ k.
    { elim=> [|k l IH] //=; first by rewrite big_nil filter_pred0. case/andP=> Hn Hl. rewrite big_cons -IH // (Fp_split (fun x => x.2 == k)). congr (_ * _).
      - rewrite -filter_predI (@eq_filter _ _ (fun x => x.2 == k)); last by move=> x /=; rewrite inE; case: eqP.
        have : forall x, x \in [seq x <- L | x.2 == k] -> x.2 = k by move=> x; rewrite mem_filter => /andP [/eqP].
        elim: [seq x <- L | x.2 == k] => [|x m IHm] H /=; first by rewrite expr1n. rewrite exprMn IHm ?(H x (mem_head _ _)) // => y Hy. apply: H. by rewrite inE Hy orbT.
      - congr Fp. rewrite -filter_predI. apply: eq_filter => x /=. rewrite inE. case: eqP => //= ->. by rewrite (negPf Hn). }
    rewrite -main //. congr Fp. apply/esym/all_filterP/allP => x Hx /=. rewrite Hk -has_filter. apply/hasP. by exists x. }
  split.
  - split=> //. by rewrite EA EF big_map.
  - move=> x /mapP [k Hkk ->] /=. split; first by apply: Pi_monic'; exact: monics_filter. apply: nonconst_Pi; first exact: good_filter. by rewrite -Hk.
  - move=> x /mapP [k Hkk ->] /=. apply: sqf_of_sep. exact: Pi_at_sqfree.
  - move=> i j. rewrite size_map => /andP [Hij Hj]. rewrite size_map in Hj. rewrite -map_comp !(nth_map 0%N) //; last exact: ltn_trans Hj. apply: coprime_filter => // x /= /eqP -> /eqP /eqP. rewrite nth_uniq //; last exact: ltn_trans Hj. by rewrite (ltn_eqF Hij).
  - rewrite -map_comp map_id. split=> // x /mapP [k]. rewrite Hk -has_filter => /hasP [y Hy /eqP <-] -> /=. exact: good_pos HL Hy.
Qed.
Lemma squarefree_gen f : Poly f != 0 -> (forall a : F, a ^+ p = a) \/ (forall B, B ^+ p %| Poly f -> (size B <= 1)%N) ->
  exists m s, [/\ @factorize_monic O div ffa f = Some (Some m), @factorize_squarefree_top O div ffa (N.of_nat p) m = Some s & squarefree_factorization (Poly f) (s_unit s) (factor_list (s_factors s))].
Proof.
  move=> Hf Hp. have [m [E1 Hu Mm Em]] := (C65_factorize_monic f).2 Hf. exists m.
  have [L [HL IL EL]] := monic_decomp Cp Mm. have ML : monics L by move=> x /IL [].
  have Hfuel x : x \in L -> (x.2 < length (m_monic m) + 1)%N. { move=> Hx. rewrite addn1 ltnS. apply: leq_trans (ltnW (good_exp HL Hx)) _. rewrite -EL. exact: size_Poly. }
  have H0 : (0 < length (m_monic m) + 1)%N by rewrite addn1.
  have Hp' : (forall a : F, a ^+ p = a) \/ (forall x, x \in L -> ~~ (p %| x.2)%N).
  { case: Hp => Hp; [by left|right]. move=> x Hx. apply/negP => /dvdnP [k Ek]. have [[H1 _] _] := IL x Hx. have /Hp : (x.1 ^+ k) ^+ p %| Poly f. { rewrite -exprM -Ek Em dvdpZr // EL. exact: mem_dvdF. }
    rewrite leqNgt. have Hk : (0 < k)%N. { have := good_pos HL Hx. rewrite Ek. by case: (k). } have := size_exp x.1 k. move: H1 Hk. set a := size x.1. set b := size (x.1 ^+ k). nia. }
  have [s [ks [S1 S2 S3 S4 S5]]] := fact_sqf_ok D FD FA Cp HL ML EL Hu Hfuel H0 Hp'.
  exists s. split=> //. rewrite S2. apply: (dec_spec HL ML S3 S4 S5) => //. by rewrite Em EL.
Qed.
(* over a prime field: every nonzero polynomial *)
Theorem C65_squarefree_prime_field f : #|F| = p -> Poly f != 0 ->
  exists m s, [/\ @factorize_monic O div ffa f = Some (Some m), @factorize_squarefree_top O div ffa (N.of_nat p) m = Some s &
    squarefree_factorization (Poly f) (s_unit s) (factor_list (s_factors s))].
Proof. move=> H Hf. apply: squarefree_gen => //. left=> a. by rewrite -{2}[a]expf_card H. Qed.
(* over any finite field: the polynomials that no p-th power divides *)
Theorem C65_squarefree_no_pth_power f : Poly f != 0 -> (forall B, B ^+ p %| Poly f -> (size B <= 1)%N) ->
  exists m s, [/\ @factorize_monic O div ffa f = Some (Some m), @factorize_squarefree_top O div ffa (N.of_nat p) m = Some s &
    squarefree_factorization (Poly f) (s_unit s) (factor_list (s_factors s))].
Proof. move=> Hf H. apply: squarefree_gen => //. by right. Qed.
End C65.

Print Assumptions C65_factorize_monic. Print Assumptions C65_squarefree_prime_field. Print Assumptions C65_squarefree_no_pth_power.

(* the hypotheses hold for the fields 'F_p and the field's own operations *)
Definition C65_Fp_instance (p : nat) (Hp : prime p) :=
  @C65_squarefree_prime_field [finFieldType of 'F_p] (@Fdiv _) (Fidom _) (@Fdiv_total _) (@Fffa _) (Fffa_ok _) p (char_Fp Hp).
Lemma C65_hyp (p : nat) : prime p -> #|[finFieldType of 'F_p]| = p.
Proof. move=> H. by rewrite card_Fp. Qed.

(* The field with four elements: the p-th root step forgets to take the roots of the coefficients, so that x^2 + b = (x + a)^2
   is reported as (x + b)^2 = x^2 + a. *)
Definition F4_ffa : ffa_op F4_ops := fun a => match a with Zero => (One, Zero) | _ => (a, One) end.
Theorem C65_squarefree_refuted :
  let f := [:: Beta; Zero; One] in
  exists m s, [/\ @factorize_monic F4_ops F4_div F4_ffa f = Some (Some m), @factorize_squarefree_top F4_ops F4_div F4_ffa 2 m = Some s,
    s = @SqfreeFactored F4_ops One [:: ([:: Beta; One], 2%num)],
    @p_equal F4_ops (@into_polynomial F4_ops (@into_monic_factored F4_ops s)) f = false &
    @p_equal F4_ops (@p_mul F4_ops [:: Alpha; One] [:: Alpha; One]) f = true].
Proof. exists (@MonicFactored F4_ops One [:: Beta; Zero; One]), (@SqfreeFactored F4_ops One [:: ([:: Beta; One], 2%num)]). vm_compute. by []. Qed.
Print Assumptions C65_squarefree_refuted.
(* (x+a)^3 (x+1): no square problem *)
Example C65_ex : let f := @p_mul F4_ops (@nat_pow (poly_ops F4_ops) [:: Alpha; One] 3) [:: One; One] in
  match @factorize_monic F4_ops F4_div F4_ffa f with Some (Some m) => @factorize_squarefree_top F4_ops F4_div F4_ffa 2 m | _ => None end =
  Some (@SqfreeFactored F4_ops One [:: ([:: One; One], 1%num); ([:: Alpha; One], 3%num)]).
Proof. vm_compute. by []. Qed.
