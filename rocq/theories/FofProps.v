(* C70: factorisation of polynomials over a field of fractions, and Q[x] (rings/src/polynomial/factoring.rs l.282-306, polynomial.rs l.903-941,
   number/rational.rs l.95-103). *)
From Coq Require Import List Arith NArith ZArith QArith Bool.
From mathcomp Require Import all_ssreflect all_fingroup all_algebra all_solvable all_field.
From mathcomp Require Import zify.
From Coq Require Import Lia.
From Verif Require Import RingSpec RingModel RingProofs FactoredSpec FactoredModel FactoredProofs PermModel MatModel MatSpec ZRing MatInst LatModel PolyModel PolySpec PolyProofs PolyProofs2 PolyProofs3 PolyProofs11 PolyProofs12 PolyProps PolyProps2 PolyProps3 FacModel FacModel2 FacProofs FacProofs2 FacProofs5 FacProps FfProofs2 BoundModel BoundProofs2 BoundProps BzModel BzSpec BzProps BzProps2 FofModel FofProofs FofProofs2.
Close Scope rs_scope. Close Scope Q_scope.
Set Implicit Arguments.
Unset Strict Implicit.
Unset Printing Implicit Defensive.
Import GRing.Theory.
Local Open Scope ring_scope.

Section C70.
(* R: the base ring, K: its field of fractions.  The contract of FieldOfFractionsStructure: from_base_ring is an injective ring map, denominators are
   nonzero and x = numerator(x) / denominator(x), and elements of the base ring have denominator 1. *)
Variables (R : idomainType) (K : fieldType).
Notation O := (mc_ops R).
Notation OK := (mc_ops [idomainType of K]).
Notation PR := (poly_ops O).
Notation PK := (poly_ops OK).
Variables (from_base : {rmorphism R -> K}) (num den : K -> R).
Hypothesis FI : injective from_base.
Hypothesis ND : forall x, den x != 0 /\ from_base (den x) * x = from_base (num x).
Hypothesis N1 : forall r, den (from_base r) = 1.
Variables (div : div_op O) (ffa : ffa_op O) (gcd : R -> R -> R).
Hypotheses (D : idom_laws O div) (F : ffa_laws O ffa) (G : gcd_laws O ffa gcd).
Variables (kdiv : div_op OK) (kffa : ffa_op OK).
Hypothesis KD : idom_laws OK kdiv.
Hypothesis KF : forall x y : K, y != 0 -> exists q, kdiv x y = DivOk q.
Hypothesis KA : ffa_laws OK kffa.
Notation factor_primitive_fof := (@factor_primitive_fof O OK from_base num den div gcd kdiv).
Notation factorize := (@factorize_by_factorize_primitive_part O OK from_base num den div gcd kdiv kffa).
(* every nonzero polynomial is a nonzero constant times a primitive polynomial over the base ring, and that is what factor_primitive_fof returns *)
Theorem C70_factor_primitive_fof (f : seq K) : Poly f != 0 -> exists u h, [/\ factor_primitive_fof f = Some (u, h), u != 0, primitive (Poly h) & Poly f = u *: map_poly from_base (Poly h)].
Proof. exact: (fof_ok FI ND N1 D G KD KF). Qed.
(* pfactor, the factorisation over the base ring, is right up to a unit on the primitive part of f *)
Definition base_factor_right (pfactor : seq R -> option (option (factored PR))) (f : seq K) : Prop :=
  forall u h, factor_primitive_fof f = Some (u, h) -> primitive (Poly h) -> Poly f = u *: map_poly from_base (Poly h) ->
  exists r w, [/\ pfactor h = Some (Some r), is_factorization (@pffar O div ffa) r, w \is a GRing.unit & Poly (@expand PR r) * w%:P = Poly h].
(* the result is a factorisation into monic primes with the right powers, and expands to f up to a nonzero constant *)
Theorem C70_factorize_partial pfactor (f : seq K) : Poly f != 0 -> base_factor_right pfactor f -> exists r' c,
  [/\ factorize pfactor f = Some (Some r'), is_factorization (@pffar OK kdiv kffa) r', c != 0 & Poly f = c *: Poly (@expand PK r')].
Proof.
  move=> f0 PF. have [r' [u [h [r [w [E V [H1 H2 H3 H4 H5] W E2]]]]]] := fof_factor_ok FI ND N1 D G KD KF KA f0 PF.
  exists r', (from_base w * \prod_(x <- f_factors r) from_base (lead_coef (Poly x.1)) ^+ (N.to_nat x.2).-1). split=> //. apply/eqP => Z. move: f0. by rewrite E2 Z scale0r eqxx.
Qed.
(* the constant is the unit that pfactor is wrong by, times the leading coefficient of every prime factor of the primitive part to its power minus one *)
Theorem C70_constant pfactor (f : seq K) : Poly f != 0 -> base_factor_right pfactor f -> exists r' u h r w,
  [/\ factorize pfactor f = Some (Some r'), factor_primitive_fof f = Some (u, h), pfactor h = Some (Some r), Poly (@expand PR r) * w%:P = Poly h &
    Poly f = (from_base w * \prod_(x <- f_factors r) from_base (lead_coef (Poly x.1)) ^+ (N.to_nat x.2).-1) *: Poly (@expand PK r')].
Proof.
  move=> f0 PF. have [r' [u [h [r [w [E V [H1 H2 H3 H4 H5] W E2]]]]]] := fof_factor_ok FI ND N1 D G KD KF KA f0 PF.
  exists r', u, h, r, w. split=> //. exact: (proj1 H2).
Qed.
(* squarefree polynomials are factored exactly *)
Theorem C70_squarefree pfactor (f : seq K) : Poly f != 0 -> coprimep (Poly f) (Poly f)^`() -> base_factor_right pfactor f ->
  (forall h r, pfactor h = Some (Some r) -> primitive (Poly h) -> Poly (@expand PR r) = Poly h) ->
  exists r', [/\ factorize pfactor f = Some (Some r'), is_factorization (@pffar OK kdiv kffa) r' & Poly (@expand PK r') = Poly f].
Proof. exact: (fof_squarefree FI ND N1 D G KD KF KA). Qed.
End C70.
Print Assumptions C70_factor_primitive_fof. Print Assumptions C70_factorize_partial. Print Assumptions C70_constant. Print Assumptions C70_squarefree.

(* ------------------------------------------------------------------ Q[x]: the rationals and the integers meet the contract *)
Definition Zi (n : int) : Z := match n with Posz n => Z.of_nat n | Negz n => Z.opp (Z.of_nat n.+1) end.
Definition rat_num (x : rat) : Z := Zi (numq x).
Definition rat_den (x : rat) : Z := Zi (denq x).
Notation zrat := [rmorphism of zin [ringType of rat]].
Lemma zin_Zi n : zin [ringType of rat] (Zi n) = n%:~R.
Proof. case: n => n; rewrite /Zi; first by rewrite zin_nat. by rewrite zin_opp zin_nat NegzE mulrNz. Qed.
Lemma zratE n : zrat (Zi n) = n%:~R.
Proof. exact: zin_Zi. Qed.
Lemma Zi_surj z : exists n, z = Zi n.
Proof. case: z => [|p|p]; [by exists (Posz 0)|exists (Posz (Pos.to_nat p))|exists (- Posz (Pos.to_nat p))]; first by rewrite /Zi; lia. have := Pos2Nat.is_pos p. case: (Pos.to_nat p) (Pos2Nat.id p) => [|n] H1 H2; first by lia. rewrite -NegzE /Zi. lia. Qed.
Lemma Zi_inj : injective Zi.
Proof. move=> [m|m] [n|n]; rewrite /Zi => H; lia. Qed.
Lemma zrat_inj : injective zrat.
Proof. move=> x y. have [m ->] := Zi_surj x. have [n ->] := Zi_surj y. rewrite !zratE => /intr_inj ->. by []. Qed.
Lemma zrat_ND x : rat_den x != 0 :> Z_idomainType /\ zrat (rat_den x) * x = zrat (rat_num x).
Proof.
  split; first by apply/eqP => H; have := denq_neq0 x; rewrite -[denq x == 0]/(denq x == Posz 0) (Zi_inj (x1 := denq x) (x2 := Posz 0)) // eqxx.
  by rewrite /rat_den /rat_num !zratE numqE mulrC.
Qed.
Lemma zrat_N1 z : rat_den (zrat z) = 1 :> Z_idomainType.
Proof. have [n ->] := Zi_surj z. rewrite zratE /rat_den. by rewrite denq_int. Qed.
Notation QF := [fieldType of rat].
Notation Qfactorize := (@factorize_by_factorize_primitive_part ZO (mc_ops [idomainType of rat]) (zin [ringType of rat]) rat_num rat_den Zdiv Zgcd (@Fdiv QF) (@Fffa QF)).
(* Q[x], with the Berlekamp-Zassenhaus algorithm on the primitive part as rational.rs does *)
Theorem C70_rationals_partial is_irr mf zfactor (f : seq rat) : accepts_primes is_irr -> mfactor_right mf -> @factors_right ZO Zffa zfactor ->
  Poly f != 0 -> Z.lt (Z.of_nat (size (Poly f))) (Z.of_N W) -> exists F0, forall fuel, (F0 <= fuel)%N -> exists r' c,
  [/\ Qfactorize (factorize_by_berlekamp_zassenhaus_algorithm is_irr mf zfactor fuel) f = Some (Some r'),
    is_factorization (@pffar (mc_ops [idomainType of rat]) (@Fdiv QF) (@Fffa QF)) r', c != 0 & Poly f = c *: Poly (@expand (poly_ops (mc_ops [idomainType of rat])) r')].
Proof.
  move=> IR MF ZF f0 HW. have [u [h [E1 u0 Hh Ef]]] := C70_factor_primitive_fof zrat_inj zrat_ND zrat_N1 Zidom Zgcd_ok (Fidom QF) (@Fdiv_total QF) f0.
  have h0 : ZP h != 0 by exact: prim_neq0 Hh.
  have Sh : size (ZP h) = size (Poly f) by rewrite Ef size_scale // size_mapf //; exact: zrat_inj.
  have [|F0 H] := C68_berlekamp_zassenhaus_partial IR MF ZF h0; first by rewrite Sh.
  exists F0 => fuel /H [r [E2 V E3]].
  apply: (C70_factorize_partial zrat_inj zrat_ND zrat_N1 Zidom Zgcd_ok (Fidom QF) (@Fdiv_total QF) (Fffa_ok QF) f0) => u' h' E1' _ _.
  have -> : h' = h by move: E1'; rewrite E1 => -[_ ->].
  case: E3 => E3; [exists r, 1|exists r, (-1)]; split=> //; try (by rewrite E2); try exact: unitr1; try (by rewrite unitrN1).
  - by rewrite polyC1 mulr1. - by rewrite polyCN polyC1 mulrN mulr1 [X in - X]E3 opprK.
Qed.
Corollary C70_rationals_instance nf (f : seq rat) : nat_factor_right nf -> Poly f != 0 -> Z.lt (Z.of_nat (size (Poly f))) (Z.of_N W) -> exists F0, forall fuel, (F0 <= fuel)%N -> exists r' c,
  [/\ Qfactorize (factorize_by_berlekamp_zassenhaus_algorithm (fun x => prime (Z.to_nat x)) mf_Fp (Zfactor_unwrap nf) fuel) f = Some (Some r'),
    is_factorization (@pffar (mc_ops [idomainType of rat]) (@Fdiv QF) (@Fffa QF)) r', c != 0 & Poly f = c *: Poly (@expand (poly_ops (mc_ops [idomainType of rat])) r')].
Proof. move=> H. apply: C70_rationals_partial; [|exact: C68_modular_factoriser|exact: (proj1 (C22_integer_factor H))]. move=> p Hp. by rewrite Nat2Z.id. Qed.
Print Assumptions C70_rationals_partial. Print Assumptions C70_rationals_instance.

(* ------------------------------------------------------------------ computing: reduced fractions *)
Definition QO : ring_ops := @RingOps Q Qeq_bool (Qmake Z0 1%positive) (Qmake (Zpos 1) 1%positive) (fun a b => Qred (Qplus a b)) (fun a b => Qred (Qmult a b)) Qopp.
Definition Qdiv_op : div_op QO := fun a b : Q => if Qeq_bool b (Qmake Z0 1%positive) then DivideByZero else DivOk (Qred (Qdiv a b) : T QO).
Definition Qffa : ffa_op QO := fun a : Q => if Qeq_bool a (Qmake Z0 1%positive) then (((Qmake (Zpos 1) 1%positive), (Qmake Z0 1%positive)) : T QO * T QO) else (a, (Qmake (Zpos 1) 1%positive)).
Definition Qfactor := @factorize_by_factorize_primitive_part ZO QO (fun z => (Qmake z 1%positive)) Qnum (fun x => Zpos (Qden x)) Zdiv Zgcd Qdiv_op Qffa
  (@factorize_by_kroneckers_method ZO Zdiv Zffa Zgcd (Zfactor_unwrap (NatModel.factor (NatModel.is_prime (fun _ => None)) 20)) Zunits Zelems (@gcd_by_primitive_subresultant ZO Zdiv Zgcd)).
(* (x - 1/2)(x^2 + 1) = x^3 - x^2/2 + x - 1/2 is factored exactly *)
Example C70_ex : exists r, [/\ Qfactor [:: (Qmake (Zneg 1) 2%positive); (Qmake (Zpos 1) 1%positive); (Qmake (Zneg 1) 2%positive); (Qmake (Zpos 1) 1%positive)] = Some (Some r),
  f_factors r = [:: ([:: (Qmake (Zneg 1) 2%positive); (Qmake (Zpos 1) 1%positive)], 1%num); ([:: (Qmake (Zpos 1) 1%positive); (Qmake Z0 1%positive); (Qmake (Zpos 1) 1%positive)], 1%num)] & @p_equal QO (@expand (poly_ops QO) r) [:: (Qmake (Zneg 1) 2%positive); (Qmake (Zpos 1) 1%positive); (Qmake (Zneg 1) 2%positive); (Qmake (Zpos 1) 1%positive)] = true].
Proof. eexists. split; by vm_compute. Qed.
(* (2x+1)^2 = 4x^2 + 4x + 1 is factored into 2 (x + 1/2)^2: the unit 2 of the factor 2x + 1 is counted once, not twice *)
Theorem C70_refuted : exists r, [/\ Qfactor [:: (Qmake (Zpos 1) 1%positive); (Qmake (Zpos 4) 1%positive); (Qmake (Zpos 4) 1%positive)] = Some (Some r), f_unit r = [:: (Qmake (Zpos 2) 1%positive)] /\ f_factors r = [:: ([:: (Qmake (Zpos 1) 2%positive); (Qmake (Zpos 1) 1%positive)], 2%num)] &
  @p_equal QO (@expand (poly_ops QO) r) [:: (Qmake (Zpos 1) 1%positive); (Qmake (Zpos 4) 1%positive); (Qmake (Zpos 4) 1%positive)] = false].
Proof. eexists. split; [by vm_compute|by split; vm_compute|by vm_compute]. Qed.
Print Assumptions C70_refuted.
(* ... and the zero polynomial panics where None is documented *)
Theorem C70_zero_refuted pfactor : @factorize_by_factorize_primitive_part ZO QO (fun z => (Qmake z 1%positive)) Qnum (fun x => Zpos (Qden x)) Zdiv Zgcd Qdiv_op Qffa pfactor [::] = None.
Proof. by vm_compute. Qed.
Print Assumptions C70_zero_refuted.
