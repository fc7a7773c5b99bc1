(* C68, the naive search (berlekamp_zassenhaus.rs l.480-574): all the 2^n subsets of the modular factors instead of the growing subsets with the d-1 test. *)
From Coq Require Import List NArith ZArith QArith Bool Sorted.
From mathcomp Require Import all_ssreflect all_fingroup all_algebra all_solvable all_field.
From mathcomp Require Import zify.
From Coq Require Import Lia.
From Verif Require Import RingSpec RingModel RingProofs RingProofs2 FactoredSpec FactoredModel FactoredProofs PermModel MatModel MatSpec ZRing MatInst LatModel PolyModel PolySpec PolyProofs PolyProofs2 PolyProofs3 PolyProofs11 PolyProofs12 PolyProps PolyProps2 PolyProps3 FacModel FacModel2 FacProofs FacProofs2 FacProofs3 FacProofs4 FacProofs5 FacProofs6 FacProps FfModel FfSpec FfProps FfProps2 HenselSpec HenselModel HenselProofs HenselProofs2 BoundModel BoundProofs BoundProofs2 BoundProps BzModel BzSpec BzProofs1 BzProofs2 BzProofs3 BzProofs5 BzProofs6 BzProofs7 BzProofs8 BzProofs9 BzProofs10 BzProps BzProofs11 BzProofs12 BzModel2 BzProofs13 BzProofs14 BzProps2.
Close Scope rs_scope. Close Scope Q_scope.
Set Implicit Arguments.
Unset Strict Implicit.
Unset Printing Implicit Defensive.
Import GRing.Theory.
Local Open Scope ring_scope.


Section Whole.
Variables (is_irr : Z -> bool) (mf : Z -> list Z -> option (list (list Z * N))) (zfactor : Z -> option (factored ZO)).
Hypothesis IR : accepts_primes is_irr.
Hypothesis MF : mfactor_right mf.
Hypothesis ZF : @factors_right ZO Zffa zfactor.
(* one call: a non-constant primitive squarefree polynomial is split into two non-constant factors, or it is irreducible *)
Theorem C68_naive_find_factor (f : list Z) : primitive (ZP f) -> (1 < size (ZP f))%N -> coprimep (ZP f) (ZP f)^`() ->
  exists F0, forall fuel, (F0 <= fuel)%N -> exists r, nv_find_factor is_irr mf fuel f = Some r /\
    match r with
    | FFComposite g h => [/\ ZP f = ZP g * ZP h, (1 < size (ZP g))%N & (1 < size (ZP h))%N]
    | FFIrreducible => forall A B : {poly Z_idomainType}, ZP f = A * B -> A \is a GRing.unit \/ B \is a GRing.unit
    end.
Proof.
  move=> Pf S1 Cf. have [q [Hq HG]] := good_prime S1 Cf. exists (N.to_nat q + 2)%N => fuel Hfu.
  have [r [Er Hr]] := nv_find_ok IR MF Hq Pf S1 HG Hfu. exists r. split=> //. case: r Hr {Er} => // Hr A B E.
  case: Hr => [_ [_ H]]. have f0 : ZP f != 0 := prim_neq0 Pf.
  have {H} := H (polyseq A) (polyseq B). case.
  - exists [:: Zpos 1]. apply/(@eqvE Z_idomainType). by rewrite !(@pmulE Z_idomainType) (@Poly1 Z_idomainType) !polyseqK mulr1 -E.
  - case=> c /(@eqvE Z_idomainType). rewrite (@pmulE Z_idomainType) !polyseqK => EA. right. apply/unitrP. exists (ZP c).
    have EB : ZP c * B = 1. { apply: (mulfI f0). by rewrite mulr1 mulrA -EA -E. } split=> //. by rewrite mulrC.
  - case=> c /(@eqvE Z_idomainType). rewrite (@pmulE Z_idomainType) !polyseqK => EA. left. apply/unitrP. exists (ZP c).
    have EB : ZP c * A = 1. { apply: (mulfI f0). by rewrite mulr1 mulrA -EA mulrC -E. } split=> //. by rewrite mulrC.
Qed.
(* primitive squarefree polynomials of any degree: the product of the factors is f itself *)
Theorem C68_naive_squarefree (f : list Z) : primitive (ZP f) -> coprimep (ZP f) (ZP f)^`() ->
  exists F0, forall fuel, (F0 <= fuel)%N -> exists r,
    [/\ factorize_by_find_factor (R := PZ) zpdiv zpffa (length f + 1)%coq_nat (nv_find_factor is_irr mf fuel) f = Some r,
        is_factorization (@pffar ZO Zdiv Zffa) r & ZP (@expand PZ r) = ZP f].
Proof. move=> Pf Cf. have [F0 H] := nv_sqfree IR MF Pf Cf. exists F0 => fuel /H [r [H1 H2 H3]]. by exists r. Qed.
(* any nonzero integer polynomial, without the bound 2^64 - 1 on the degree *)
Theorem C68_naive_partial (f : list Z) : ZP f != 0 ->
  exists F0, forall fuel, (F0 <= fuel)%N -> exists r, [/\ factorize_by_berlekamp_zassenhaus_algorithm_naive is_irr mf zfactor fuel f = Some (Some r),
    is_factorization (@pffar ZO Zdiv Zffa) r & ZP (@expand PZ r) = ZP f \/ ZP (@expand PZ r) = - ZP f].
Proof.
  move=> f0. have [as_ [A1 A2]] := @yun_args Z_idomainType Zdiv Zidom Zffa Zffa_ok Zgcd Zgcd_ok Z_char0 _ (fun u v H => gcdps_PG Zidom Zgcd_ok v H) zfactor (right_FA ZF) f f0.
  set sq := fun fuel g => factorize_by_find_factor (R := PZ) zpdiv zpffa (length g + 1)%coq_nat (nv_find_factor is_irr mf fuel) g.
  have [F0 HF] : exists F0, forall a, List.In a as_ -> forall fuel, (F0 <= fuel)%N -> exists r, [/\ sq fuel a = Some r, okf Zdiv Zffa r & ZP (@expand PZ r) = ZP a].
  { elim: as_ A1 {A2} => [|a l IH] A1; first by exists 0%N. have [|F1 H1] := IH; first by move=> b Hb; apply: A1; right.
    have [B1 B2 B3] := A1 a (or_introl erefl). have [F2 H2] := nv_sqfree IR MF B1 B2.
    exists (maxn F1 F2) => b Hb fuel. rewrite geq_max => /andP[L1 L2]. case: Hb => [<-|Hb]; [exact: H2|exact: H1]. }
  exists F0 => fuel Hfu. have [|r [w [E1 E2 E3 E4]]] := A2 (sq fuel).
  { move=> a Ha. have [r [H1 H2 H3]] := HF a Ha fuel Hfu. exists r, 1. split=> //. by rewrite polyC1 mulr1. }
  exists r. rewrite /factorize_by_berlekamp_zassenhaus_algorithm_naive -[ZO]/(mc_ops Z_idomainType) p_is_zeroE (negPf f0). cbn [obind]. split=> //; first by rewrite E1.
  move/Zunits_ok: E3 E4 => [<-|[<-|[]]] E; [left|right]; move: E.
  - by rewrite -[X in X%:P]/(1 : Z_idomainType) mulr1.
  - by move=> <-; rewrite -[X in X%:P]/(- 1 : Z_idomainType) polyCN mulrN mulr1 opprK.
Qed.
Theorem C68_naive_zero (f : list Z) fuel : ZP f = 0 -> factorize_by_berlekamp_zassenhaus_algorithm_naive is_irr mf zfactor fuel f = Some None.
Proof. move=> E. by rewrite /factorize_by_berlekamp_zassenhaus_algorithm_naive -[ZO]/(mc_ops Z_idomainType) p_is_zeroE E eqxx. Qed.
End Whole.
Print Assumptions C68_naive_find_factor. Print Assumptions C68_naive_squarefree. Print Assumptions C68_naive_partial. Print Assumptions C68_naive_zero.
(* the hypotheses hold together, with the modular factoriser of C66 and the integer factoriser of C22 *)
Corollary C68_naive_instance nf (f : list Z) : nat_factor_right nf -> ZP f != 0 ->
  exists F0, forall fuel, (F0 <= fuel)%N -> exists r, [/\ factorize_by_berlekamp_zassenhaus_algorithm_naive (fun x => prime (Z.to_nat x)) mf_Fp (Zfactor_unwrap nf) fuel f = Some (Some r),
    is_factorization (@pffar ZO Zdiv Zffa) r & ZP (@expand PZ r) = ZP f \/ ZP (@expand PZ r) = - ZP f].
Proof.
  move=> H. apply: C68_naive_partial; [|exact: C68_modular_factoriser|exact: (proj1 (C22_integer_factor H))]. move=> p Hp. by rewrite Nat2Z.id.
Qed.
(* the naive algorithm on -(x^2-1)^2 gives (x^2-1)^2: the unit -1 of the factorisation of 1 - x^2 is not raised to the power 2 *)
Definition mf11 (p : Z) (_ : list Z) : option (list (list Z * N)) :=
  if Z.eqb p (Zpos 2) then Some [:: ([:: Zpos 1; Zpos 1], 2%num)] else Some [:: ([:: Zpos 1; Zpos 1], 1%num); ([:: Zpos 2; Zpos 1], 1%num)].
Theorem C68_naive_refuted : exists r, [/\ factorize_by_berlekamp_zassenhaus_algorithm_naive (fun _ => true) mf11 one_factor 40 [:: Zneg 1; Z0; Zpos 2; Z0; Zneg 1] = Some (Some r),
  length (f_factors r) = 2%N & @expand PZ r = [:: Zpos 1; Z0; Zneg 2; Z0; Zpos 1]].
Proof.
  have K (o : option (option (factored PZ))) (P Q : factored PZ -> Prop) : match o with Some (Some r) => P r /\ Q r | _ => False end -> exists r, [/\ o = Some (Some r), P r & Q r].
  { case: o => [[r|]|] // [H1 H2]. by exists r. }
  refine (K (factorize_by_berlekamp_zassenhaus_algorithm_naive (fun _ => true) mf11 one_factor 40 [:: Zneg 1; Z0; Zpos 2; Z0; Zneg 1]) (fun r => length (f_factors r) = 2%N) (fun r => @expand PZ r = [:: Zpos 1; Z0; Zneg 2; Z0; Zpos 1]) _).
  lazy. split; reflexivity.
Qed.
Print Assumptions C68_naive_refuted.
(* the roots modulo 5 as simple linear factors; nothing squarefree modulo other primes *)
Definition mf5 (p : Z) (f : list Z) : option (list (list Z * N)) :=
  if Z.eqb p (Zpos 5) then Some (map (fun r => ([:: Z.modulo (Z.opp r) (Zpos 5); Zpos 1], 1%num)) (filter (fun r => Z.eqb (Z.modulo (@p_evaluate ZO f r) (Zpos 5)) Z0) [:: Z0; Zpos 1; Zpos 2; Zpos 3; Zpos 4]))
  else Some [:: ([:: Zpos 1; Zpos 1], 2%num)].
(* 6 f1234 = -6 (x - 1)(x - 2)(x - 3)(x - 4) comes out right *)
Example C68_naive_ex : exists r, [/\ factorize_by_berlekamp_zassenhaus_algorithm_naive (fun _ => true) mf5 zf6 40 (map (Z.mul (Zpos 6)) f1234) = Some (Some r), length (f_factors r) = 6%N &
  @expand PZ r = map (Z.mul (Zpos 6)) f1234].
Proof.
  have K (o : option (option (factored PZ))) (P Q : factored PZ -> Prop) : match o with Some (Some r) => P r /\ Q r | _ => False end -> exists r, [/\ o = Some (Some r), P r & Q r].
  { case: o => [[r|]|] // [H1 H2]. by exists r. }
  refine (K (factorize_by_berlekamp_zassenhaus_algorithm_naive (fun _ => true) mf5 zf6 40 (map (Z.mul (Zpos 6)) f1234)) (fun r => length (f_factors r) = 6%N) (fun r => @expand PZ r = map (Z.mul (Zpos 6)) f1234) _). lazy. split; reflexivity.
Qed.
