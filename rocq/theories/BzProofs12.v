(* The loop over primes terminates, and the algorithm on one primitive squarefree polynomial. *)
From Coq Require Import List NArith ZArith QArith Bool Sorted.
From mathcomp Require Import all_ssreflect all_algebra separable.
From mathcomp Require Import zify.
From Coq Require Import Lia.
From Verif Require HenselProofs5 NatModel NatSpec NatProofs2.
From Verif Require Import SetsModel SetsSpec SetsProofs1 SetsProofs2.
From Verif Require Import RingSpec RingModel RingProofs RingProofs2 FactoredSpec FactoredModel FactoredProofs PermModel MatModel MatSpec ZRing MatInst PolyModel PolySpec PolyProofs PolyProofs2 PolyProofs3 PolyProofs11 PolyProofs12 PolyProps PolyProps3 FacModel FacProofs FacProofs2 FacProofs3 FacProofs4 FacProofs5 HenselSpec HenselModel HenselProofs HenselProofs2 BoundModel BoundProofs BoundProofs2 BoundProps BzModel BzSpec BzProofs1 BzProofs2 BzProofs3 BzProofs5 BzProofs6 BzProofs7 BzProofs8 BzProofs9 BzProofs10 BzProofs11.
Close Scope rs_scope. Close Scope Q_scope.
Set Implicit Arguments.
Unset Strict Implicit.
Unset Printing Implicit Defensive.
Import GRing.Theory.
Local Open Scope ring_scope.

Lemma primeE (q : N) : NatSpec.prime_N q -> prime (N.to_nat q).
Proof.
  case=> H1 H2. apply/primeP. split; first lia. move=> d /dvdnP [k E]. have [|Hd|Hd] := H2 (N.of_nat d). { exists (N.of_nat k). lia. } - apply/orP. left. apply/eqP. lia. - apply/orP. right. apply/eqP. lia.
Qed.
Lemma primeE' (n : nat) : prime n -> NatSpec.prime_N (N.of_nat n).
Proof.
  move=> Hp. split; first by have := prime_gt1 Hp; lia. move=> d [k E]. have /(proj2 (primeP Hp)) : (N.to_nat d %| n)%N by apply/dvdnP; exists (N.to_nat k); lia. case/orP=> /eqP H; [left|right]; lia.
Qed.
Section Sqfree.
Variables (is_irr : Z -> bool) (mf : Z -> list Z -> option (list (list Z * N))).
Hypothesis IR : forall p, prime p -> is_irr (Z.of_nat p).
Hypothesis MF : mfactor_right mf.
Section One.
Variable f : list Z.
Hypothesis Sf : (1 < size (ZP f))%N.
Notation d := (size (ZP f)).-1.
Notation L := (lead_coef (ZP f)).
(* all primes but finitely many are accepted *)
Lemma good_prime : coprimep (ZP f) (ZP f)^`() -> exists q, NatSpec.prime_N q /\ zin [ringType of 'F_(N.to_nat q)] L != 0 /\ separable_poly (modp (N.to_nat q) f).
Proof.
  move=> /Bezout_coprimepP [[U V]] /= Huv. have /size_poly1P [r r0 Er] : size (U * ZP f + V * (ZP f)^`()) == 1%N by rewrite (eqp_size Huv) size_poly1.
  have L0 : L != 0 by rewrite lead_coef_eq0 -size_poly_gt0; exact: ltn_trans Sf.
  pose x : Z := Z.mul r L. have Hq := prime_above (Z.to_nat (Z.abs x)). case: Hq => q Hq1 Hq2. exists (N.of_nat q). rewrite Nnat.Nat2N.id.
  have Hx0 : x <> Z0. { have r0' : r <> Z0 by apply/eqP. have L0' : L <> Z0 by apply/eqP. rewrite /x. move: r0' L0'. clear. set l : Z := L. nia. }
  have Hx : zin [ringType of 'F_q] x != 0. { apply/eqP => /(zin_Fp Hq2) [c Hc]. clearbody x. have Ha := Z.abs_mul (Z.of_nat q) c. rewrite -Hc in Ha. have Hc0 : c <> Z0 by move=> Z; apply: Hx0; rewrite Hc Z Z.mul_0_r. move: Ha Hq1 Hc0. clear. nia. }
  rewrite /x zin_mul mulf_eq0 negb_or in Hx. case/andP: Hx => Hr HL. split; first exact: primeE'. split=> //.
  pose phi := zin_rmorph [fieldType of 'F_q]. apply/Bezout_coprimepP. exists (map_poly phi U, map_poly phi V). rewrite [_.1]/= [_.2]/=.
  have -> : modp q f = map_poly phi (ZP f) by []. rewrite deriv_map -!rmorphM -rmorphD Er. have -> : map_poly_rmorphism (zin_rmorph (Fp_idomainType q)) r%:P = (phi r)%:P by exact: (map_polyC phi). rewrite -size_poly_eq1 size_polyC. by rewrite Hr.
Qed.
Variable minimum : N.
Lemma np_ok q : NatSpec.prime_N q -> zin [ringType of 'F_(N.to_nat q)] L != 0 -> separable_poly (modp (N.to_nat q) f) ->
  forall fuel g, NatProofs2.PGinv g -> N.le (NatModel.pg_n g) q -> N.lt (N.sub q (NatModel.pg_n g)) (N.of_nat fuel) ->
  exists pn S, [/\ prime pn, next_prime is_irr mf fuel f d minimum g = Some S & state_ok pn f minimum S].
Proof.
  move=> Hq HL Sep. elim=> [|fuel IH] g I Hg Hf; first lia. cbn [next_prime].
  have [p [g' [E [I' [Hp [H1 [H2 [H3 H4]]]]]]]] := NatProofs2.next_spec fuel.+1 g q I Hq Hg Hf. rewrite E. cbn [obind fst snd].
  have Pp := primeE Hp. have Ep : p = N.of_nat (N.to_nat p) by lia.
  have [HLp|HLp] := eqVneq (zin [ringType of 'F_(N.to_nat p)] L) 0.
  - have Hne : p <> q by move=> Epq; move: HL; rewrite -Epq HLp eqxx. rewrite {1}Ep (nap_lead0 Pp _ _ _ Sf HLp). cbn [obind]. apply: IH => //; lia.
  - have [N0|[S [ES HS]]] := nap_ok Pp (IR Pp) MF minimum Sf HLp.
    + rewrite {1}Ep N0. cbn [obind]. have Hne : p <> q. { move=> Epq. subst p. have [S [ES _]] := nap_sep Pp (IR Pp) MF minimum Sf HLp Sep. by rewrite N0 in ES. }
      apply: IH => //; lia.
    + exists (N.to_nat p), S. have -> : new_at_prime is_irr mf f d minimum p = Some (Some S) by rewrite Ep. by split.
Qed.
End One.
Lemma binom_le n k : (binom n k <= 2 ^ n)%N.
Proof. elim: n k => [|n IH] [|k] //=; rewrite ?expn_gt0 // expnS mul2n -addnn. apply: leq_add; exact: IH. Qed.
Lemma fuel_ok n k fuel : (2 ^ n + 2 <= fuel)%N -> (length (subsets n k) + 2 <= fuel)%coq_nat.
Proof. move=> H. rewrite /subsets subsets_count. have := binom_le n k. move: (2 ^ n)%N (binom n k) H => a b. lia. Qed.
(* one modular factor: the polynomial is irreducible *)
Lemma single_ok cf (f : list Z) pn M dg : (1 < size (ZP f))%N -> prim (ZP f) -> Z.lt Z0 M -> zin [ringType of 'F_pn] (lead_coef (ZP f)) != 0 -> irreducible_poly (modp pn f) ->
  exists r, [/\ factor_by_try_all_subsets cf (AtPrime f (lead_coef (ZP f)) dg M [:: f]) = Some r, okf Zdiv Zffa r & zex r = ZP f].
Proof.
  move=> Sf Pf M0 HL [_ Hi]. rewrite /factor_by_try_all_subsets [ap_modulus _]/= [ap_poly _]/= [ap_factors _]/=.
  have [|beta [EB ->]] := @dm_new_ok M f [:: f] M0 Sf. { move=> g. by rewrite inE => /eqP ->. } cbn [obind fst snd length Nat.add bz_loop bz_m Nat.div Nat.leb].
  have [O1 X1] : okf Zdiv Zffa (factored_one (R := PZ)) /\ zex (factored_one (R := PZ)) = 1.
  { split; last first. { have E : @expand PZ (factored_one (R := PZ)) = [:: Zpos 1] by vm_compute. rewrite E. exact: (@Poly1 ZR). } split; [|by split; constructor|by constructor]. exists (@r1 PZ). by vm_compute. }
  have Hir : irrp (ZP f).
  { split=> // A B E. pose phi := zin_rmorph [fieldType of 'F_pn]. have Em : map_poly phi A * map_poly phi B = modp pn f by rewrite -rmorphM E.
    have HLL : phi (lead_coef A) * phi (lead_coef B) != 0 by rewrite -rmorphM -lead_coefM E. rewrite mulf_eq0 negb_or in HLL. case/andP: HLL => HA HB.
    have SA : size (map_poly phi A) = size A by exact: size_map_poly_id0. have SB : size (map_poly phi B) = size B by exact: size_map_poly_id0.
    have [S1|S1] := eqVneq (size A) 1%N; first by rewrite S1. apply/orP. right. have := Hi (map_poly phi A). rewrite SA S1 -Em dvdp_mulr // => /(_ isT isT) /eqp_size. have A0 : map_poly phi A != 0 by rewrite -lead_coef_eq0 (lead_coef_map_eq HA). have B0 : map_poly phi B != 0 by rewrite -lead_coef_eq0 (lead_coef_map_eq HB).
    rewrite size_mul // SA SB. move: A0. rewrite -size_poly_gt0 SA. move: (size A) (size B) => a b. lia. }
  have [O2 X2] := Zirr_fact Pf Hir. have [O3 X3] := ex_mul Zidom Zffa_ok O1 O2. eexists. split; [reflexivity|exact: O3|]. by rewrite X3 X1 X2 mul1r.
Qed.
Lemma sqfree_total (f : list Z) : prim (ZP f) -> coprimep (ZP f) (ZP f)^`() -> Z.lt (Z.of_nat (size (ZP f))) (Z.of_N W) -> exists F0, forall fuel, (F0 <= fuel)%N ->
  exists r, [/\ bz_sqfree is_irr mf fuel f = Some r, okf Zdiv Zffa r & zex r = ZP f \/ zex r = - ZP f].
Proof.
  move=> Pf Cf HW. have f0 : ZP f != 0 := prim_neq0 Pf. rewrite /bz_sqfree.
  have Ed : @p_degree ZO f = Some (size (ZP f)).-1. { rewrite -[ZO]/(mc_ops ZR) p_degreeE. move: f0. rewrite -size_poly_gt0. by case: (size _). }
  have [S1|S1] := ltnP 1 (size (ZP f)); last first.
  { exists 0%N => fuel _. rewrite Ed. cbn [obind]. have -> : Nat.eqb (size (ZP f)).-1 0 by case: (size _) S1 => [|[|]]. eexists. split; [reflexivity| |by left; rewrite /expand /=].
    apply: okf_unit. apply/(@punitE ZR). have [E|E] := prim_const Pf S1; [exists 1; [exact: unitr1|by rewrite E]|exists (-1); [exact: unitrN1|by rewrite E polyCN]]. }
  have [o [Eo]] := C63_mignotte f. case: o Eo => [b|] Eo; last by move=> Z; rewrite Z eqxx in f0. case=> _ Hb. have [q [Hq [HL Sep]]] := good_prime S1 Cf.
  exists (N.to_nat q + 2 ^ (size (ZP f)).-1 + 2)%N => fuel Hf. rewrite Ed. cbn [obind]. have -> : Nat.eqb (size (ZP f)).-1 0 = false by apply/negbTE; case: (size _) S1 => [|[|]].
  rewrite Eo. cbn [obind].
  have [||pn [S [Pp Es [gs [t [ES t0 Mm HS]]]]]] := @np_ok f S1 (N.mul 2 b) q Hq HL Sep fuel NatModel.pg_new NatProofs2.PG_new.
  { case: Hq. cbn [NatModel.pg_new NatModel.pg_n]. lia. } { cbn [NatModel.pg_new NatModel.pg_n]. move: Hf. move: (2 ^ _)%N => x. lia. }
  rewrite Es ES. cbn [obind]. have Hb2 : Z.le (Z.mul 2 (Z.of_N b)) (Z.pow (Z.of_nat pn) (Z.of_nat t)) by move: Mm; lia.
  case: HS => [LI|[-> HLp Hi]].
  - have [o2 [Eo2]] := C52_cauchy algC f. case: o2 Eo2 => [beta|] Eo2; last by rewrite leqNgt S1. move=> _.
    apply: (search_ok LI HW Pf S1 Eo Hb2 Eo2). move=> k. apply: fuel_ok. have H1 := size_gsF LI. have H2 : (2 ^ size gs <= 2 ^ (size (ZP f)).-1)%N by rewrite leq_exp2l. move: H2 Hf. move: (2 ^ _)%N (2 ^ _)%N => x y. lia.
  - have M0 : Z.lt Z0 (Z.pow (Z.of_nat pn) (Z.of_nat t)) by apply: Z.pow_pos_nonneg; have := prime_gt0 Pp; lia.
    have [r [R1 R2 R3]] := single_ok fuel (size (ZP f)).-1 S1 Pf M0 HLp Hi. exists r. split=> //. by left.
Qed.
End Sqfree.
