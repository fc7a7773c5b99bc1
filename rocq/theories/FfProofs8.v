(* Distinct degree factorisation (FfModel: dd_gcd, dd_loop, dd_one). *)
From Coq Require Import List Arith NArith Bool.
From mathcomp Require Import all_ssreflect all_fingroup all_algebra all_solvable all_field separable.
From mathcomp Require Import zify.
From Coq Require Import Lia.
From Verif Require Import RingSpec RingModel RingProofs RingProofs2 FactoredSpec FactoredModel FactoredProofs PermModel MatModel MatSpec MatProofs2 LatModel PolyModel PolyProofs PolyProofs2 PolyProofs3 PolyProofs11 PolyProofs12 FacModel FacProofs FacProofs2 FacProofs4 FfModel FfProofs FfProofs2 FfProofs6 FfProofs7.
Close Scope rs_scope.
Set Implicit Arguments.
Unset Strict Implicit.
Unset Printing Implicit Defensive.
Import GRing.Theory.
Local Open Scope ring_scope.

Definition irr_ge (R : idomainType) i (A : {poly R}) : Prop := forall C : {poly R}, irreducible_poly C -> C %| A -> (i <= (size C).-1)%N.
Definition irr_eq (R : idomainType) d (A : {poly R}) : Prop := forall C : {poly R}, irreducible_poly C -> C %| A -> (size C).-1 = d.
Definition sep (R : idomainType) (A : {poly R}) := coprimep A A^`().
Lemma sep_l (R : idomainType) (A B : {poly R}) : sep (A * B) -> sep A.
Proof. move=> C. apply/coprimepP => G H1 H2. move/coprimepP: C => /(_ G); apply; first exact: dvdp_mulr. rewrite derivM dvdp_add //; exact: dvdp_mulr. Qed.
Lemma sep_sq (R : idomainType) (A B : {poly R}) : sep A -> B * B %| A -> (size B <= 1)%N.
Proof.
  move=> S /Pdiv.Idomain.dvdpP [[k Q] /= k0 E]. have H : B %| A. { rewrite -(dvdpZr _ _ k0) E. rewrite mulrA. exact: dvdp_mulIr. }
  have H' : B %| A^`(). { rewrite -(dvdpZr _ _ k0) -derivZ E derivM derivM. apply: dvdp_add; [by rewrite mulrA dvdp_mulIr|]. rewrite mulrDr dvdp_add // dvdp_mull //; [exact: dvdp_mulIr|exact: dvdp_mulIl]. }
  have /coprimepP/(_ B H H') := S. by rewrite -size_poly_eq1 => /eqP ->.
Qed.

Section Math.
Variable F : finFieldType.
Notation q := #|F|.
Implicit Types (A B G : {poly F}).
Lemma dd_step i A G B : (0 < i)%N -> sep A -> irr_ge i A -> G %= gcdp A ('X^(q ^ i) - 'X) -> A = B * G -> irr_eq i G /\ irr_ge i.+1 B.
Proof.
  move=> i0 SA HA EG E. split=> C HC CD.
  - have := CD. rewrite (eqp_dvdr _ EG) dvdp_gcd => /andP [H1 H2]. apply/eqP. by rewrite eqn_leq (dvd_Xq_deg HC i0 H2) HA.
  - have CA : C %| A by rewrite E dvdp_mulr. have := HA C HC CA. rewrite leq_eqVlt => /orP [/eqP Ei|] //. exfalso.
    have : C %| G. { rewrite (eqp_dvdr _ EG) dvdp_gcd CA /= Ei. exact: irr_dvd_Xq. } move=> CG.
    have : C * C %| A by rewrite E; exact: dvdp_mul. move/(sep_sq SA). case: HC => H1 _. by rewrite leqNgt H1.
Qed.
Lemma irr_ge1 A : irr_ge 1 A.
Proof. move=> C [H _] _. by case: (size C) H => [|[|k]]. Qed.
Lemma dd_exit i A : irr_ge i A -> A \is monic -> ((size A).-1 < 2 * i)%N -> A = 1 \/ irreducible_poly A.
Proof.
  move=> HA M S. have [S1|S1] := leqP (size A) 1. { left. have := size1_polyC S1 => E. rewrite E. move: M. rewrite {1}E monicE lead_coefC => /eqP ->. by []. }
  right. split=> // B B1 /dvdpP [C E]. have A0 := monic_neq0 M. have B0 : B != 0 by apply/eqP => Z; move: A0; rewrite E Z mulr0 eqxx. have C0 : C != 0 by apply/eqP => Z; move: A0; rewrite E Z mul0r eqxx.
  have B2 : (1 < size B)%N by rewrite ltn_neqAle eq_sym B1 size_poly_gt0.
  have [C1|C1] := leqP (size C) 1.
  { rewrite E eqp_sym -{2}[B]mul1r. apply: eqp_mulr. by rewrite -size_poly_eq1 eqn_leq C1 size_poly_gt0. }
  exfalso. have [r1 [I1 _ D1]] := irr_divisor B2 (leqnn _). have [r2 [I2 _ D2]] := irr_divisor C1 (leqnn _).
  have E1 : (i <= (size r1).-1)%N by apply: HA I1 _; rewrite E dvdp_mull. have E2 : (i <= (size r2).-1)%N by apply: HA I2 _; rewrite E dvdp_mulr.
  have := size_mul C0 B0. rewrite -E => Es. have := dvdp_leq B0 D1. have := dvdp_leq C0 D2. case: I1 => _ _; case: I2 => _ _. move: S E1 E2 Es B2 C1. clear.
  move: (size A) (size B) (size C) (size r1) (size r2) => a b c x y. lia.
Qed.
Lemma irr_eq_self A : irreducible_poly A -> irr_eq (size A).-1 A.
Proof. move=> [_ H] C [C1 _] CD. have : C %= A by apply: H => //; rewrite neq_ltn C1 orbT. by move/eqp_size ->. Qed.
End Math.

Section Loop.
Variable R : idomainType.
Notation O := (mc_ops R).
Notation P := (poly_ops O).
Variable div : div_op O.
Hypothesis D : idom_laws O div.
Hypothesis FD : forall x y : R, y != 0 -> exists q, div x y = DivOk q.
Variable ffa : ffa_op O.
Hypothesis FA : ffa_laws O ffa.
Variable gcd : R -> R -> R.
Hypothesis G : gcd_laws O ffa gcd.
Variable q : nat.
Hypothesis Hq1 : forall x : R, x ^+ q = x.
Hypothesis Hq2 : forall A B : {poly R}, (A + B) ^+ q = A ^+ q + B ^+ q.
Variables pchar pexp : N.
Hypothesis qE : N.to_nat (q_of pchar pexp) = q.
Hypothesis q0 : (0 < q)%N.
Hypothesis HS : forall i (A B C : {poly R}), (0 < i)%N -> sep A -> irr_ge i A -> C %= gcdp A ('X^(q ^ i) - 'X) -> A = B * C -> irr_eq i C /\ irr_ge i.+1 B.
Hypothesis HX : forall i (A : {poly R}), irr_ge i A -> A \is monic -> ((size A).-1 < 2 * i)%N -> A = 1 \/ irreducible_poly A.
Hypothesis HI : forall A : {poly R}, irreducible_poly A -> irr_eq (size A).-1 A.
Implicit Types (f g a b : seq R) (A B : {poly R}).

Lemma dd_gcd_ok f x : Poly f \is monic -> exists g, [/\ @dd_gcd O div ffa gcd f x = Some g, Poly g \is monic & Poly g %= gcdp (Poly f) (Poly x - 'X)].
Proof.
  move=> M. have f0 := monic_neq0 M. rewrite /dd_gcd. have [g [-> Hg Eg]] := gcdps_PG D G (@p_add O x (@p_neg O (@p_var O))) (field_prim (field_unit D FD) f0). cbn [obind].
  rewrite p_addE p_negE Poly_polyseq p_varE in Eg. have g0 : Poly g != 0 by apply/eqP => Z; move: Eg; rewrite Z eqp_sym eqp0 gcdp_eq0 (negPf f0).
  have [m [-> Hm Em]] := monic_unwrap_ok D FD FA g0. exists m. split=> //. exact: eqp_trans Em Eg.
Qed.
Lemma gcd_cong A B B' : A %| B - B' -> gcdp A B %= gcdp A B'.
Proof.
  move=> H. have K C C' : A %| C - C' -> gcdp A C %| gcdp A C'. { move=> HC. rewrite dvdp_gcd dvdp_gcdl /=. have -> : C' = C - (C - C') by rewrite opprB addrC subrK. rewrite dvdp_sub ?dvdp_gcdr //. exact: dvdp_trans (dvdp_gcdl _ _) HC. }
  rewrite /eqp !K //. by rewrite -dvdpNr opprB.
Qed.
Definition degs (bs : seq (ddf O * N)) := [seq dd_degree x.1 | x <- bs].
Definition blk (k : N) (bs : seq (ddf O * N)) : Prop :=
  (forall x, List.In x bs -> [/\ x.2 = k, Poly (dd_poly x.1) \is monic, (1 < size (Poly (dd_poly x.1)))%N & irr_eq (dd_degree x.1) (Poly (dd_poly x.1))]) /\ sorted ltn (degs bs).
Notation prodd bs := (\prod_(x <- bs) Poly (dd_poly x.1)).
Lemma dd_loop_ok f0 Q k : Poly f0 != 0 -> represents Q (\matrix_(i < (size (Poly f0)).-1, j < (size (Poly f0)).-1) (Cq div f0 (q_of pchar pexp) j)`_i) ->
  forall fuel i x f acc, (0 < i)%N -> Poly f %| Poly f0 -> Poly f \is monic -> sep (Poly f) -> irr_ge i (Poly f) -> Poly f0 %| Poly x - 'X^(q ^ i) -> ((size (Poly f)).-1 < 2 * i + 2 * fuel)%N ->
  exists f' bs i', [/\ @dd_loop O div ffa gcd pchar pexp fuel f0 Q i x f k acc = Some (f', acc ++ bs), Poly f = Poly f' * prodd bs, Poly f' \is monic,
    Poly f' = 1 \/ irreducible_poly (Poly f') & (i <= i')%N /\ blk k bs /\ irr_ge i' (Poly f') /\ all (fun d => i <= d < i')%N (degs bs)].
Proof.
  move=> F0 HQ. elim=> [|fuel IH] i x f acc i0 Df M Sf Gf Hx Hfuel.
  - have fn0 := monic_neq0 M. exists f, [::], i. rewrite [dd_loop _ _ _ _ _ _ _ _ _ _ _ _ _]/= p_degreeE. move: (fn0). rewrite -size_poly_gt0. case E: (size (Poly f)) => [|n] // _. cbn [obind].
    have -> : Nat.leb (i + (i + 0)%coq_nat)%coq_nat n = false. { apply/Nat.leb_gt. move: Hfuel. rewrite E. clear. lia. }
    rewrite cats0 big_nil mulr1. split=> //. apply: HX Gf M _. by rewrite muln0 addn0 in Hfuel.
  - have fn0 := monic_neq0 M. cbn [dd_loop]. rewrite p_degreeE. move: (fn0). rewrite -size_poly_gt0. case E: (size (Poly f)) => [|n] // _. cbn [obind].
    case Hc: (Nat.leb _ _); last first.
    { exists f, [::], i. rewrite cats0 big_nil mulr1. split=> //. apply: HX Gf M _. move/Nat.leb_gt: Hc. rewrite E. clear. lia. }
    rewrite p_is_monicE M. cbn match. have [g [-> Mg Eg]] := dd_gcd_ok x M. cbn [obind]. rewrite p_is_monicE Mg. cbn match.
    have [H1 H2 _] := mod_facts D FD F0.
    set y := p_var_pow _. have Ey : Poly y = 'X^(q ^ i). { rewrite p_var_powE. congr ('X^_). rewrite N2Nat.inj_pow Nat2N.id qE. elim: (i) => [|j IHj] //=. rewrite expnS IHj. by []. }
    have -> : @req (mod_ops div f0) x y by apply/H1; rewrite Ey. cbn match. have [g' [-> Mg' Eg']] := dd_gcd_ok y M. cbn [obind]. rewrite p_is_monicE Mg'. cbn match.
    have Egg : Poly g' %= Poly g. { apply: eqp_trans Eg' _. rewrite eqp_sym. apply: eqp_trans Eg _. apply: gcd_cong. rewrite Ey opprB addrA subrK. exact: dvdp_trans Df Hx. }
    have -> : @p_equal O g g'. { apply/p_equalP. apply/eqP. by rewrite -eqp_monic // eqp_sym. } cbn match.
    rewrite Ey in Eg'. have Eg2 : Poly g %= gcdp (Poly f) ('X^(q ^ i) - 'X) by rewrite eqp_sym in Egg; exact: eqp_trans Egg Eg'.
    have [B EB] : exists B, Poly f = B * Poly g by apply: (dvdE D FD); rewrite (eqp_dvdl _ Eg) dvdp_gcdl.
    have [K1 K2] := HS i0 Sf Gf Eg2 EB. have g0 := monic_neq0 Mg.
    have MB : B \is monic by move: M; rewrite EB monicMr. have SB : sep B by apply: (@sep_l R B (Poly g)); rewrite -EB.
    have [v [v' [b [Ev Ev' Eb Hb]]]] := frob_step D FD F0 Hq1 Hq2 qE q0 x HQ.
    have Hb' : Poly f0 %| Poly b - 'X^(q ^ i.+1).
    { have : Poly f0 %| Poly x ^+ q - 'X^(q ^ i) ^+ q by rewrite subrXX dvdp_mulr. rewrite -exprM -expnSr => H3. have := dvdp_add Hb H3. by rewrite addrA subrK. }
    have Ai : (i + 1)%coq_nat = i.+1 by rewrite plusE addn1.
    case Hg1: (@p_equal O g [:: r1]); cbn [negb].
    + move/p_equalP: Hg1. rewrite Poly1 polyC1 => Hg1. cbn [obind fst snd]. rewrite Ev. cbn [obind]. rewrite Ev'. cbn [obind]. rewrite Eb. cbn [obind]. rewrite Ai.
      rewrite Hg1 mulr1 in EB. have [||f' [bs [i' [E1 E2 E3 E4 [L1 [E5 [E6 E7]]]]]]] := IH i.+1 b f acc isT Df M Sf _ Hb'; first by rewrite EB.
      { move: Hfuel. clear. move: (size _) => z. lia. }
      exists f', bs, i'. split=> //. split; [exact: ltnW|split=> //; split=> //]. apply: sub_all E7 => d. by case/andP => [/ltnW -> ->].
    + move/negP: Hg1 => Hg1. have Hg1' : Poly g != 1 by apply/eqP => Z; apply: Hg1; apply/p_equalP; rewrite Z Poly1.
      have [f1 [-> Ef1]] := div_unwrap_ok D g0 EB. cbn [obind fst snd]. rewrite Ev. cbn [obind]. rewrite Ev'. cbn [obind]. rewrite Eb. cbn [obind]. rewrite Ai.
      have S1 : (1 < size (Poly g))%N. { rewrite ltnNge. apply/negP => S1. have Ec := size1_polyC S1. move: (Mg) Hg1'. rewrite {1}Ec monicE lead_coefC => /eqP E0. by rewrite Ec E0 eqxx. }
      have [|||||f' [bs [i' [E1 E2 E3 E4 [L1 [[E5 E5'] [E6 E7]]]]]]] := IH i.+1 b f1 (acc ++ [:: (@Ddf O i g, k)])%list isT _ _ _ _ Hb'; rewrite ?Ef1 //.
      { apply: dvdp_trans Df. by rewrite EB dvdp_mulIl. }
      { have := size_mul (monic_neq0 MB) g0. rewrite -EB. move: Hfuel S1. clear. move: (size (Poly f)) (size B) (size (Poly g)) => u v w. lia. }
      exists f', ((@Ddf O i g, k) :: bs), i'. split=> //; first by rewrite E1 -[(acc ++ _)%list]/(acc ++ [:: (@Ddf O i g, k)]) -catA.
      { by rewrite big_cons mulrCA mulrC -E2 Ef1 EB. }
      split; [exact: ltnW|split; [split|split=> //]].
      * move=> z /= [<-|Hz]; [by []|exact: E5].
      * rewrite /= path_sortedE; last exact: ltn_trans. rewrite E5' andbT. apply: sub_all E7 => d /andP [H _]. exact: H.
      * rewrite /= leqnn /=.         rewrite L1 /=. apply: sub_all E7 => d. by case/andP => [/ltnW -> ->].
Qed.
Definition blk_of (fk : seq R * N) (bs : seq (ddf O * N)) : Prop := Poly fk.1 = prodd bs /\ blk fk.2 bs.
Lemma dd_one_ok f k acc : Poly f \is monic -> (1 < size (Poly f))%N -> sep (Poly f) -> irr_ge 1 (Poly f) ->
  exists bs, @dd_one O div ffa gcd pchar pexp (f, k) acc = Some (acc ++ bs) /\ blk_of (f, k) bs.
Proof.
  move=> M S1 Sf G1. have f0 := monic_neq0 M. rewrite /dd_one p_degreeE. move: (f0). rewrite -size_poly_gt0. case E: (size (Poly f)) => [|n] // _. cbn [obind].
  have -> : Nat.leb 1 n by move: S1; rewrite E; case: (n). cbn match. have [cs [Q [E1 E2 HQ]]] := qmat_ok div f0 (q_of pchar pexp). rewrite E [n.+1.-1]/= in E1, E2. rewrite E1. cbn [obind]. rewrite E2. cbn [obind].
  have Hx : Poly f %| Poly (nat_pow (R := mod_ops div f) (@p_var O) (q_of pchar pexp) : seq R) - 'X^(q ^ 1).
  { have := mod_powE D FD f0 (@p_var O) (q_of pchar pexp). by rewrite p_varE qE expn1. }
  have [|f' [bs [i' [E3 E4 E5 E6 [L1 [[E7 E7'] [E8 E9]]]]]]] := dd_loop_ok k f0 HQ (fuel := n) acc (isT : 0 < 1)%N (dvdpp _) M Sf G1 Hx.
  { rewrite E. clear. lia. }
  rewrite E3. cbn [obind]. case Hf: (@p_equal O f' [:: r1]); cbn [negb].
  - move/p_equalP: Hf. rewrite Poly1 polyC1 => Hf. exists bs. split=> //. by split=> //=; rewrite E4 Hf mul1r.
  - move/negP: Hf => Hf. have Hi : irreducible_poly (Poly f') by case: E6 => // Z; case: Hf; apply/p_equalP; rewrite Z Poly1.
    have S' : (1 < size (Poly f'))%N by case: Hi. rewrite p_degreeE. case Es: (size (Poly f')) => [|n'] //; first by rewrite Es in S'. cbn [obind].
    exists (bs ++ [:: (@Ddf O n' f', k)]). rewrite catA. split=> //. split; first by rewrite big_cat big_seq1 /= E4 mulrC.
    split.
    + move=> z /List.in_app_iff [Hz|[<-|]] //=; first exact: E7. split=> //. have := HI Hi. by rewrite Es.
    + move: E7'. rewrite /degs map_cat !(sorted_pairwise ltn_trans) pairwise_cat => -> /=. rewrite allrel1r andbT. have Li : (i' <= n')%N by have := E8 _ Hi (dvdpp _); rewrite Es.
      apply: sub_all E9 => d /andP [_ Hd]. exact: leq_trans Hd Li.
Qed.
Lemma dd_fold_ok (l : seq (seq R * N)) : (forall x, x \in l -> [/\ Poly x.1 \is monic, (1 < size (Poly x.1))%N, sep (Poly x.1) & irr_ge 1 (Poly x.1)]) ->
  forall acc, exists bss, List.fold_left (fun ac fk => do ac1 <- ac; @dd_one O div ffa gcd pchar pexp fk ac1) l (Some acc) = Some (acc ++ flatten bss) /\ List.Forall2 blk_of l bss.
Proof.
  elim: l => [|[f k] l IH] Hl acc. { exists [::]. rewrite cats0. by split. }
  have [H1 H2 H3 H4] := Hl _ (mem_head _ _). have [bs [E1 E2]] := dd_one_ok k acc H1 H2 H3 H4. cbn [List.fold_left obind]. rewrite E1.
  have [|bss [E3 E4]] := IH _ (acc ++ bs). { move=> x Hx. apply: Hl. by rewrite inE Hx orbT. }
  exists (bs :: bss). rewrite E3 /= catA. split=> //. by constructor.
Qed.
End Loop.
