(* The steps of Cantor-Zassenhaus (FfModel: cz_g, cz_split, cz_filter). *)
From Coq Require Import List Arith NArith Bool.
From mathcomp Require Import all_ssreflect all_fingroup all_algebra all_solvable all_field separable.
From mathcomp Require Import zify.
From Coq Require Import Lia.
From Verif Require Import RingSpec RingModel RingProofs RingProofs2 FactoredSpec FactoredModel FactoredProofs PermModel MatModel MatSpec MatProofs2 LatModel PolyModel PolyProofs PolyProofs2 PolyProofs3 PolyProofs9 PolyProofs11 PolyProofs12 FacModel FacProofs FacProofs2 FacProofs3 FacProofs4 FfModel FfProofs FfProofs2 FfProofs5 FfProofs7.
Close Scope rs_scope.
Set Implicit Arguments.
Unset Strict Implicit.
Unset Printing Implicit Defensive.
Import GRing.Theory.
Local Open Scope ring_scope.

Section S.
Variable R : idomainType.
Notation O := (mc_ops R).
Notation P := (poly_ops O).
Variable div : div_op O.
Hypothesis D : idom_laws O div.
Hypothesis FD : forall x y : R, y != 0 -> exists q, div x y = DivOk q.
Variable ffa : ffa_op O.
Hypothesis FA : ffa_laws O ffa.
Variables pchar pexp : N.
Notation pdv := (@pdivr O div).
Notation pfa := (@pffar O div ffa).
Let PD : idom_laws P pdv := poly_idom D.
Let PF : ffa_laws P pfa := poly_ffa D FA.
Notation fact := (factored P).
Notation ex := (fun f : fact => Poly (@expand P f)).
Implicit Types (f g a b h u : seq R) (A B : {poly R}).
Let FU : forall x : R, x != 0 -> x \is a GRing.unit := field_unit D FD.

Lemma irr_fact f : (1 < size (Poly f))%N -> (forall A B, Poly f = A * B -> (size A <= 1)%N \/ (size B <= 1)%N) ->
  okf div ffa (@factored_irreducible_unchecked P pfa f) /\ ex (@factored_irreducible_unchecked P pfa f) = Poly f.
Proof.
  move=> S1 Hi. have f0 : Poly f != 0 by rewrite -size_poly_gt0; apply: ltn_trans S1.
  have Hp : @rprime P f by apply: (prim_irr_prime (fgcd_ok FA FU)) => //; exact: field_prim.
  have Hz : ~ eqv P f (@r0 P) by move/eqvE => E; move: f0; rewrite E eqxx.
  case: (@factorize_by_find_factor_ok P pdv pfa PD PF (fun e => e = f) (fun _ => Some FFIrreducible) (fun _ => 0%N) _ 1%N f) => //; first by move=> e -> _ _; exists FFIrreducible.
  move=> r [E1 [E2 [E3 [E4 E5]]]]. have Er : r = @factored_irreducible_unchecked P pfa f.
  { move: E1. cbn [factorize_by_find_factor]. case Ez: (@is_zero P f); first by case: Hz; exact: Ez. case Eu: (@is_unit P pdv f) => [] [<-] //. exfalso. have [_ [Hu _]] := Hp. apply: Hu. exact: ((is_unit_ok P (poly_ring R) pdv PD f).1 Eu). }
  rewrite -Er. split=> //. exact/eqvE.
Qed.
Definition GG (d : nat) A : {poly R} :=
  if N.eqb pchar 2 then \sum_(j < N.to_nat pexp * d) A ^+ (2 ^ j) else A ^+ ((N.to_nat (q_of pchar pexp) ^ d).-1)./2 - 1.
Lemma char2E n sq sum : Poly (@char2_loop O n sq sum) = Poly sum + \sum_(j < n) Poly sq ^+ (2 ^ j).
Proof.
  elim: n sq sum => [|n IH] sq sum /=; first by rewrite big_ord0 addr0. rewrite IH p_addE p_mulE ?Poly_polyseq big_ord_recl expn0 expr1 addrA. congr (_ + _). apply: eq_bigr => j _. by rewrite -expr2 -exprM -expnS.
Qed.
Lemma cz_gE m h d : Poly m != 0 -> Poly m %| Poly (@cz_g O div pchar pexp m h d) - GG d (Poly h).
Proof.
  move=> m0. rewrite /cz_g /GG. case: N.eqb.
  - rewrite char2E /p_zero add0r N2Nat.inj_mul Nat2N.id subrr. exact: dvdp0.
  - have [H1 H2 [H3 H4 H5]] := mod_facts D FD m0.
    have E : N.to_nat (N.div (N.pow (q_of pchar pexp) (N.of_nat d) - 1) 2) = ((N.to_nat (q_of pchar pexp) ^ d).-1)./2.
    { have dE k : Nat.div2 k = k./2. { have : Nat.div2 k = k./2 /\ Nat.div2 k.+1 = k.+1./2 by elim: k => [|k [IH1 IH2]] //; split=> //=; rewrite IH1. by case. }
      rewrite -N.div2_div N2Nat.inj_div2 dE. congr half. rewrite N2Nat.inj_sub N2Nat.inj_pow Nat2N.id. rewrite -subn1. congr (_ - _)%N. move: (N.to_nat _) => y. elim: (d) => [|j IHj] //=. rewrite expnS IHj. by []. }
    have := mod_powE D FD m0 h (N.div (N.pow (q_of pchar pexp) (N.of_nat d) - 1) 2). rewrite E => H6.
    have := H3 (nat_pow (R := mod_ops div m) h (N.div (N.pow (q_of pchar pexp) (N.of_nat d) - 1) 2)) (@rneg (mod_ops div m) (@r1 (mod_ops div m))). rewrite H5. cbn [r1 mod_ops quotient_ops poly_ops]. rewrite Poly1 polyC1 => H7.
    have := dvdp_add H7 H6. by rewrite [- (_ + - 1)]opprB addrA -[_ + (1 - _) + _]addrA subrK opprB addrA.
Qed.
Lemma cz_split_ok g u : Poly u \is monic -> (1 < size (Poly u))%N -> exists l, @cz_split O div ffa g u = Some l /\
  ((l = [:: u] /\ (coprimep (Poly u) (Poly g) \/ Poly u %| Poly g)) \/
   exists v w, [/\ l = [:: v; w], Poly u = Poly v * Poly w, Poly w %= gcdp (Poly u) (Poly g), Poly v \is monic /\ (1 < size (Poly v))%N & Poly w \is monic /\ (1 < size (Poly w))%N]).
Proof.
  move=> M S1. have u0 := monic_neq0 M. rewrite /cz_split. have := sgcd_ok D u g. case: subresultant_gcd => [sg|] H; last by case: H => Z _; rewrite Z eqxx in u0. case: H => _ Es. cbn [obind].
  have s0 : Poly sg != 0 by apply/eqP => Z; move: Es; rewrite Z eqp0 gcdp_eq0 (negPf u0).
  have [w [-> Mw Ew]] := monic_unwrap_ok D FD FA s0. cbn [obind]. have w0 := monic_neq0 Mw. have Egcd : Poly w %= gcdp (Poly u) (Poly g) by rewrite eqp_sym in Es; exact: eqp_trans Ew Es.
  rewrite !p_degreeE. case Sw: (size (Poly w)) => [|n]; first by move: w0; rewrite -size_poly_gt0 Sw. case Su: (size (Poly u)) => [|k]; first by rewrite Su in S1. cbn [obind].
  have dw : Poly w %| Poly u by rewrite (eqp_dvdl _ Egcd) dvdp_gcdl.
  case E1: (Nat.eqb n 0); [|case E2: (Nat.eqb n k)]; cbn [orb].
  - exists [:: u]. split=> //. left. split=> //. left. rewrite /coprimep -(eqp_size Egcd) Sw. by move/Nat.eqb_eq: E1 => ->.
  - exists [:: u]. split=> //. left. split=> //. right. have : Poly w %= Poly u by rewrite (eqP (_ : Poly w %= Poly u == true)) // eqb_id; rewrite -dvdp_size_eqp // Sw Su; move/Nat.eqb_eq: E2 => ->.
    move=> E. rewrite eqp_sym in E. rewrite (eqp_dvdl _ E) (eqp_dvdl _ Egcd). exact: dvdp_gcdr.
  - have [B EB] := dvdE D FD dw. have [v [Ev EvB]] := div_unwrap_ok D w0 EB. rewrite Ev. cbn [obind]. exists [:: v; w]. split=> //. right. exists v, w. rewrite -EvB in EB. split=> //.
    + have Mv : Poly v \is monic by move: M; rewrite EB monicMr. split=> //. have := size_mul (monic_neq0 Mv) w0. rewrite -EB Su Sw. have := dvdp_leq u0 dw. rewrite Su Sw. move/Nat.eqb_neq: E2. clear. move: (size (Poly v)) => x. lia.
    + split=> //. rewrite Sw. by case: (n) E1.
Qed.
(* removing what is finished *)
Lemma cz_filter_ok d (k : N) : (0 < N.to_nat k)%N -> forall (l : seq (seq R)) (fs : fact), okf div ffa fs ->
  (forall u, u \in l -> [/\ Poly u \is monic, (1 < size (Poly u))%N & (size (Poly u)).-1 = d -> forall A B, Poly u = A * B -> (size A <= 1)%N \/ (size B <= 1)%N]) ->
  exists l' fs', [/\ @cz_filter O div ffa d k l fs = Some (l', fs'), okf div ffa fs', ex fs' * \prod_(u <- l') Poly u ^+ N.to_nat k = ex fs * \prod_(u <- l) Poly u ^+ N.to_nat k &
    forall u, u \in l' -> u \in l /\ (size (Poly u)).-1 != d].
Proof.
  move=> K. elim=> [|u l IH] fs Of Hl. { exists [::], fs. by split. }
  have [M S1 Hi] := Hl u (mem_head _ _). have Hl' v : v \in l -> [/\ Poly v \is monic, (1 < size (Poly v))%N & (size (Poly v)).-1 = d -> forall A B, Poly v = A * B -> (size A <= 1)%N \/ (size B <= 1)%N] by move=> Hv; apply: Hl; rewrite inE Hv orbT.
  cbn [cz_filter]. rewrite p_degreeE. case Su: (size (Poly u)) => [|n]; first by rewrite Su in S1. cbn [obind]. case E: (Nat.eqb n d).
  - move/Nat.eqb_eq: E => E. have [O1 X1] := irr_fact S1 (Hi (etrans (congr1 predn Su) E)). have [|O2 X2] := ex_pow_monic D FD FA O1 _ K; first by rewrite X1.
    have [O3 X3] := ex_mul D FA Of O2. have [l' [fs' [E1 E2 E3 E4]]] := IH _ O3 Hl'. exists l', fs'. split=> //; last by move=> v /E4 [H1 H2]; rewrite inE H1 orbT.
    by rewrite E3 X3 X2 X1 big_cons mulrA.
  - have [l' [fs' [E1 E2 E3 E4]]] := IH _ Of Hl'. exists (u :: l'), fs'. rewrite E1. cbn [obind fst snd]. split=> //; first by rewrite !big_cons mulrCA E3 mulrCA.
    move=> v. rewrite !inE => /orP [/eqP ->|/E4 [H1 H2]]; last by rewrite H1 orbT. rewrite eqxx Su. split=> //. apply/eqP => Z. move/Nat.eqb_neq: E. by rewrite -Z.
Qed.
End S.
