(* C22: polynomial factorisation - Yun's algorithm, Kronecker's method and trial division (rings/src/polynomial/factoring.rs).
   A factorisation r stands for expand(r); is_factorization r says that it satisfies the documented invariant of Factored: a unit, prime and
   pairwise non-associate factors with positive exponents, each its own favourite associate. *)
From Coq Require Import List Arith NArith ZArith Znumtheory Bool.
From mathcomp Require Import all_ssreflect all_algebra separable.
From mathcomp Require Import zify.
From Coq Require Import Lia.
From Verif Require Import RingSpec RingModel RingProofs RingProps FactoredSpec FactoredModel FactoredProofs FactoredProps NatSpec PermModel MatModel MatSpec ZRing MatInst PolyModel PolySpec PolyProofs PolyProofs2 PolyProofs3 PolyProofs11 PolyProofs12 PolyProps PolyProps2 PolyProps3 FacModel FacModel2 FacProofs FacProofs2 FacProofs3 FacProofs4 FacProofs5.
From Verif Require NatModel NatProps.
Close Scope rs_scope.
Set Implicit Arguments.
Unset Strict Implicit.
Unset Printing Implicit Defensive.
Import GRing.Theory.
Local Open Scope ring_scope.

(* the documented invariant of Factored over a ring with favourite associates *)
Definition is_factorization (A : ring_ops) (ffa : ffa_op A) (r : @factored A) : Prop :=
  [/\ runit (f_unit r), valid_factors (f_factors r) & favs ffa (f_factors r)].
(* the coefficient ring's factor(): never panics on a nonzero element, and is right *)
Definition factors_right (A : ring_ops) (ffa : ffa_op A) (factor : T A -> option (@factored A)) : Prop :=
  forall c : T A, req c r0 = false -> exists cf, [/\ factor c = Some cf, is_factorization ffa cf & req (@expand A cf) c = true].

Section C22.
Variable R : idomainType.
Notation O := (mc_ops R).
Notation P := (poly_ops O).
Variable div : div_op O.
Hypothesis D : idom_laws O div.
Variable ffa : ffa_op O.
Hypothesis F : ffa_laws O ffa.
Notation pfa := (@pffar O div ffa).
Lemma okf_is r : okf div ffa r <-> is_factorization pfa r.
Proof. by split=> -[H1 H2 H3]. Qed.
Lemma right_FA factor : factors_right ffa factor -> forall c : R, c != 0 -> exists cf, [/\ factor c = Some cf, okfR ffa cf & @expand O cf = c].
Proof. move=> H c Hc. have [|cf [E1 [H1 H2 H3] E2]] := H c; first exact: negbTE Hc. exists cf. split=> //. exact/eqP. Qed.

Section Char0.
Variable gcd : R -> R -> R.
Hypothesis G : gcd_laws O ffa gcd.
Hypothesis C0 : forall n, (n.+1)%:R != 0 :> R.
Variable factor : R -> option (@factored O).
Hypothesis FA : factors_right ffa factor.
(* Yun's algorithm with any squarefree factoriser that is right on primitive squarefree polynomials: never panics on a nonzero f, the result
   is a factorisation, and it expands to f up to a unit constant; exactly if all units returned by the squarefree factoriser are 1 *)
Theorem C22_yun_partial sqf : 
  (forall a, primitive (Poly a) -> coprimep (Poly a) (Poly a)^`() -> exists fa, [/\ sqf a = Some fa, is_factorization pfa fa & Poly (@expand P fa) = Poly a]) ->
  forall f, Poly f != 0 -> exists r w, [/\ @yun O div gcd (@gcd_by_primitive_subresultant O div gcd) factor sqf f = Some r, is_factorization pfa r,
    w \is a GRing.unit & Poly (@expand P r) * w%:P = Poly f] /\
    ((forall a fa, sqf a = Some fa -> Poly (f_unit fa) = 1) -> w = 1).
Proof. move=> SQ f Hf. have [r [w [[H1 H2 H3 H4] H5]]] := @yun_ok R div D ffa F gcd G C0 _ sqf factor (fun u v H => gcdps_PG D G v H) SQ (right_FA FA) f Hf. exists r, w. by split. Qed.

Variables (units : seq R) (elems : nat -> R).
Hypothesis UN : forall u, List.In u units <-> u \is a GRing.unit.
Hypothesis EL : injective elems.
(* Kronecker's search on a nonconstant primitive polynomial never panics and terminates: it reports Irreducible only for prime elements and
   otherwise returns two nonconstant primitive polynomials with product f *)
Theorem C22_kronecker_find f : primitive (Poly f) -> (1 < size (Poly f))%N -> exists r, @find_factor_kronecker O div factor units elems f = Some r /\ match r with
  | FFComposite g h => [/\ Poly f = Poly g * Poly h, primitive (Poly g), primitive (Poly h), (1 < size (Poly g))%N & (1 < size (Poly h))%N]
  | FFIrreducible => @rprime P f end.
Proof. exact: (kronecker_ok D G (right_FA FA) UN EL). Qed.
Theorem C22_kronecker_method_partial f : Poly f != 0 -> exists r w,
  [/\ @factorize_by_kroneckers_method O div ffa gcd factor units elems (@gcd_by_primitive_subresultant O div gcd) f = Some (Some r), is_factorization pfa r,
      w \is a GRing.unit & Poly (@expand P r) * w%:P = Poly f].
Proof. exact: (kron_method_ok D F G C0 (right_FA FA) UN EL). Qed.
Theorem C22_kronecker_zero f pg : Poly f = 0 -> @factorize_by_kroneckers_method O div ffa gcd factor units elems pg f = Some None.
Proof. move=> H. by rewrite /factorize_by_kroneckers_method p_is_zeroE H eqxx. Qed.
End Char0.

(* over a field with finitely many units (a finite field): trial division by all monic polynomials is exact *)
Theorem C22_trying_all_factors units f : (forall x : R, x != 0 -> x \is a GRing.unit) -> (forall u, List.In u units <-> u \is a GRing.unit) ->
  exists o, @factorize_by_trying_all_factors O div ffa units f = Some o /\
    match o with None => Poly f = 0 | Some r => Poly f != 0 /\ is_factorization pfa r /\ Poly (@expand P r) = Poly f end.
Proof.
  move=> FU UN. case: (@eqP _ (Poly f) 0) => [Hf|/eqP Hf].
  - exists None. by rewrite /factorize_by_trying_all_factors p_is_zeroE Hf eqxx.
  - have [r [E1 E2 E3]] := trying_ok D F FU UN Hf. by exists (Some r).
Qed.
(* irreducible or not is decided exactly *)
Theorem C22_trying_find units f : (forall x : R, x != 0 -> x \is a GRing.unit) -> (forall u, List.In u units <-> u \is a GRing.unit) -> (1 < size (Poly f))%N ->
  exists r, @find_factor_by_trying_all_factors O div units f = Some r /\ match r with
  | FFComposite g h => [/\ Poly f = Poly g * Poly h, (1 < size (Poly g))%N & (1 < size (Poly h))%N]
  | FFIrreducible => @rprime P f end.
Proof.
  move=> FU UN Hs. have Hf : Poly f != 0 by rewrite -size_poly_gt0; exact: ltn_trans Hs. have [r [E H]] := try_all_ok D F FU UN Hf Hs. exists r. split=> //. by case: r H {E} => // g h [].
Qed.
End C22.
Print Assumptions C22_yun_partial. Print Assumptions C22_kronecker_find. Print Assumptions C22_kronecker_method_partial. Print Assumptions C22_kronecker_zero. Print Assumptions C22_trying_all_factors. Print Assumptions C22_trying_find.

(* ------------------------------------------------------------------ the integers *)
(* nat_factor_right nf (FacProofs5): nf returns the prime factorisation of every positive natural number, as C12 states of
   number/natural/factor.rs (unconditionally below 10001^2); nf_spec shows that it can be met. *)
Theorem C22_integer_factor nf : nat_factor_right nf -> @factors_right ZO Zffa (Zfactor_unwrap nf) /\ Zfactor nf Z0 = Some None.
Proof.
  move=> H. split=> // c Hc. have [|cf [E [H1 H2 H3 H4]]] := Zfactor_ok H (c := c); first by move=> Z; move: Hc; rewrite Z.
  exists cf. split; [by rewrite /Zfactor_unwrap E|by split|by apply/eqP].
Qed.
Print Assumptions C22_integer_factor.
Lemma Zunits_ok (u : Z_idomainType) : List.In u Zunits <-> u \is a GRing.unit.
Proof.
  rewrite -(@runitE Z_idomainType). split; first by move=> H; apply/Zrunit; case: H => [<-|[<-|[]]]; [left|right]. by move/Zrunit=> [->|->]; [left|right; left].
Qed.
(* Kronecker's method for integer polynomials: never panics, and the result is a factorisation of f or of -f *)
Theorem C22_int_kronecker_partial nf (f : seq Z_idomainType) : nat_factor_right nf -> Poly f != 0 -> exists r,
  [/\ @factorize_by_kroneckers_method ZO Zdiv Zffa Zgcd (Zfactor_unwrap nf) Zunits Zelems (@gcd_by_primitive_subresultant ZO Zdiv Zgcd) f = Some (Some r),
      is_factorization (@pffar ZO Zdiv Zffa) r & Poly (@expand (poly_ops ZO) r : seq Z_idomainType) = Poly f \/ Poly (@expand (poly_ops ZO) r : seq Z_idomainType) = - Poly f].
Proof.
  move=> H Hf. have [r [w [E1 E2 E3 E4]]] := @C22_kronecker_method_partial Z_idomainType Zdiv Zidom Zffa Zffa_ok Zgcd Zgcd_ok Z_char0 _ (proj1 (C22_integer_factor H)) Zunits Zelems Zunits_ok Zelems_inj f Hf.
  exists r. split=> //. move/Zunits_ok: E3 E4 => [<-|[<-|[]]] <-; [left|right].
  - by rewrite -[X in X%:P]/(1 : Z_idomainType) mulr1.
  - by rewrite -[X in X%:P]/(- 1 : Z_idomainType) polyCN mulrN mulr1 opprK.
Qed.
Print Assumptions C22_int_kronecker_partial.
(* ... and -f does occur: for f = -(x^2-1)^2 the result expands to (x^2-1)^2.  (Yun's algorithm raises the factorisation of 1 - x^2 = -(x-1)(x+1)
   to the power 2 with Factored::pow, which leaves the unit -1 as it is.) *)
Theorem C22_refuted : exists (f : seq Z) r,
  @factorize_by_kroneckers_method ZO Zdiv Zffa Zgcd (Zfactor_unwrap (NatModel.factor (NatModel.is_prime (fun _ => None)) 20)) Zunits Zelems (@gcd_by_primitive_subresultant ZO Zdiv Zgcd) f = Some (Some r) /\
  f = [:: Zneg 1; Z0; Zpos 2; Z0; Zneg 1] /\ @expand (poly_ops ZO) r = [:: Zpos 1; Z0; Zneg 2; Z0; Zpos 1].
Proof. eexists; eexists. split; [|split]; [|reflexivity|]; by vm_compute. Qed.
Print Assumptions C22_refuted.
(* 2(x^2+1)(x-3)^2 *)
Example C22_ex : nat_factor_right nf_spec /\ exists r, 
  @factorize_by_kroneckers_method ZO Zdiv Zffa Zgcd (Zfactor_unwrap (NatModel.factor (NatModel.is_prime (fun _ => None)) 20)) Zunits Zelems (@gcd_by_primitive_subresultant ZO Zdiv Zgcd) [:: Zpos 18; Zneg 12; Zpos 20; Zneg 12; Zpos 2] = Some (Some r) /\
  f_factors r = [:: ([:: Zpos 2], 1%num); ([:: Zpos 1; Z0; Zpos 1], 1%num); ([:: Zneg 3; Zpos 1], 2%num)].
Proof. split; first exact: nf_spec_right. eexists. split; by vm_compute. Qed.
(* a finite field that meets the hypotheses of the trial division theorems *)
Example C22_ex_field : (forall x : [fieldType of 'F_2], x != 0 -> x \is a GRing.unit) /\ (forall u : [fieldType of 'F_2], List.In u [:: 1] <-> u \is a GRing.unit).
Proof.
  split; first by move=> x; rewrite unitfE. move=> u. rewrite unitfE. split; first by case=> [<-|[]]; exact: oner_neq0.
  move=> H. left. apply/val_inj. by case: u H => [[|[|m]] Hm].
Qed.
