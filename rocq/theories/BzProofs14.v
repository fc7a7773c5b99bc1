(* The naive Berlekamp-Zassenhaus algorithm on one polynomial. *)
From Coq Require Import List NArith ZArith QArith Bool Sorted.
From mathcomp Require Import all_ssreflect all_algebra separable.
From mathcomp Require Import zify.
From Coq Require Import Lia.
From Verif Require HenselProofs5 NatModel NatSpec NatProofs2.
From Verif Require Import RingSpec RingModel RingProofs RingProofs2 FactoredSpec FactoredModel FactoredProofs PermModel MatModel MatSpec ZRing MatInst PolyModel PolySpec PolyProofs PolyProofs2 PolyProofs3 PolyProofs11 PolyProofs12 PolyProps PolyProps3 FacModel FacProofs FacProofs2 FacProofs3 FacProofs4 FacProofs5 HenselSpec HenselModel HenselProofs HenselProofs2 BoundModel BoundProofs BoundProofs2 BoundProps BzModel BzModel2 BzSpec BzProofs1 BzProofs2 BzProofs3 BzProofs5 BzProofs6 BzProofs7 BzProofs8 BzProofs9 BzProofs10 BzProofs11 BzProofs12 BzProofs13.
Close Scope rs_scope. Close Scope Q_scope.
Set Implicit Arguments.
Unset Strict Implicit.
Unset Printing Implicit Defensive.
Import GRing.Theory.
Local Open Scope ring_scope.

Lemma sym_coef M (A : {poly ZR}) k : Z.lt Z0 M -> (Poly (map (sym_lift M) A) : {poly ZR})`_k = sym_lift M A`_k.
Proof. move=> M0. rewrite coef_Poly. case: (ltnP k (size A)) => Hk; first by rewrite (nth_map (0 : ZR)). by rewrite !nth_default ?size_map // sym_lift0. Qed.
Lemma sym_cong M (A B : {poly ZR}) : Z.lt Z0 M -> @cong ZR M A B -> Poly (map (sym_lift M) A) = Poly (map (sym_lift M) B) :> {poly ZR}.
Proof.
  move=> M0 C. apply/polyP => k. rewrite !sym_coef //. have [c Ec] := C k. have {}Ec : Z.sub A`_k B`_k = Z.mul M c := Ec. apply: sym_lift_class; first by move=> Z; move: M0; rewrite Z. exists c. move: Ec. set a := A`_k. set b := B`_k. clearbody a b. lia.
Qed.
Section Lifted.
Variables (f : list Z) (gs : list (list Z)) (pn t : nat).
Hypothesis LI : lifted f gs pn t.
Notation M := (Z.pow (Z.of_nat pn) (Z.of_nat t)).
Notation L := (lead_coef (ZP f)).
Notation phi := (zin_rmorph [fieldType of 'F_pn]).
Notation rset := (@rset ZR [fieldType of 'F_pn] phi (map (fun g : list Z => ZP g) gs : seq {poly ZR})).
Notation Yc s := (Poly (map (sym_lift M) (L *: \prod_(i <- s) ZP (nth [::] gs i))) : {poly ZR}).
Hypothesis PR : prim (ZP f).
Hypothesis Sf : (1 < size (ZP f))%N.
Variable b : N.
Hypothesis MB : mignotte_factor_coefficient_bound f = Some (Some b).
Hypothesis Hb : Z.le (Z.mul 2 (Z.of_N b)) M.
Lemma YcE s : sub_ok gs s -> Yc s = Poly (map (sym_lift M) (@p_mul ZO [:: L] (prod_in (@p_mul (ZQ M)) gs [::] s))).
Proof.
  move=> Hs. set Y := RHS. have -> : Y = Poly (map (sym_lift M) (L *: ZP (prod_in (@p_mul (ZQ M)) gs [::] s))).
  { rewrite /Y. congr Poly. congr map. have := @p_mulE ZR [:: L] (prod_in (@p_mul (ZQ M)) gs [::] s) => ->. by rewrite Poly1 mul_polyC. }
  apply: sym_cong; first exact: (M0 LI). apply: cong_scale. apply: cong_sym. exact: (prodM LI Hs).
Qed.
Lemma chosen_sub c : chosen (size gs) c <> [::] -> sub_ok gs (chosen (size gs) c).
Proof.
  move=> H. split=> //; rewrite chosenE.
  - apply: (sorted_filter ltn_trans). exact: iota_ltn_sorted.
  - move=> i. by rewrite mem_filter mem_iota add0n => /andP [].
Qed.
Lemma lift_Nz c : Yc (chosen (size gs) c) != 0.
Proof.
  case E: (chosen (size gs) c) => [|i s]; last first. { rewrite -E YcE; last by apply: chosen_sub; rewrite E. rewrite -size_poly_gt0. apply: ltn_trans (Ysize LI _); first by []. by apply: chosen_sub; rewrite E. }
  rewrite big_nil. apply/eqP => Zq. have := sym_coef (L *: 1) 0 (M0 LI). rewrite Zq coef0 coefZ coef1 mulr1 => H. have := li_lc LI. case/negP. apply/eqP/(kerp LI). 
  have [|e Ee] := @sym_lift_cong M L; first by move=> Z'; have := M0 LI; rewrite Z'. rewrite -H in Ee. exists (- ((Z.of_nat pn : ZR) ^+ t.-1 * e)).
  rewrite mulrN mulrA -exprS prednK; last exact: li_t LI. rewrite -(powE pn t). have {}Ee : Z0 = Z.add L (Z.mul M e) := Ee. rewrite -[RHS]/(Z.opp (Z.mul M e)). move: Ee. set l : Z := L. clearbody l. lia.
Qed.
Lemma lift_cover F H : F * H = ZP f -> (1 < size F)%N -> (1 < size H)%N -> exists c, List.In c (bool_vectors (size gs)) /\ Yc (chosen (size gs) c) = lead_coef H *: F.
Proof.
  move=> E SF SH. have [c [Hc Ec]] := chosen_pred (size gs) (fun i => map_poly phi (map (fun g : list Z => ZP g) gs : seq {poly ZR})`_i %| map_poly phi F).
  have Er : rset F = chosen (size gs) c by rewrite Ec /BzProofs1.rset nG.
  have Hs : sub_ok gs (chosen (size gs) c). { apply: chosen_sub => Z. move: SF. by rewrite (rset_nonconst (Lp LI) (Lp LI) (fE LI) (Irr LI) (Cop LI) E) Er Z. }
  exists c. split=> //. rewrite YcE //. exact: (cand_true LI MB Hb Hs E Er SH).
Qed.
Lemma lifted_search : exists r, nv_search M L f (size (ZP f)).-1 gs (bool_vectors (size gs)) = Some r /\ match r with
    | FFComposite g h => [/\ ZP f = ZP g * ZP h, (1 < size (ZP g))%N & (1 < size (ZP h))%N]
    | FFIrreducible => irrp (ZP f) end.
Proof. apply: nv_search_ok => //; [by move=> c _; exact: lift_Nz|exact: lift_cover]. Qed.
End Lifted.
Lemma sym_lift_phi pn t x : prime pn -> (0 < t)%N -> sym_lift (Z.pow (Z.of_nat pn) (Z.of_nat t)) x = Z0 -> zin [ringType of 'F_pn] x = 0.
Proof.
  move=> Pp t0 H. apply/(zin_Fp Pp). have M0 : Z.lt Z0 (Z.pow (Z.of_nat pn) (Z.of_nat t)) by apply: Z.pow_pos_nonneg; have := prime_gt0 Pp; lia.
  have [|e Ee] := @sym_lift_cong (Z.pow (Z.of_nat pn) (Z.of_nat t)) x; first by move=> Zq; move: M0; rewrite Zq. rewrite H in Ee.
  exists (Z.opp (Z.mul (Z.pow (Z.of_nat pn) (Z.of_nat t.-1)) e)). have {}Ee : Z0 = Z.add x (Z.mul (Z.pow (Z.of_nat pn) (Z.of_nat t)) e) := Ee.
  have Et : Z.of_nat t = Z.succ (Z.of_nat t.-1) by lia. rewrite Et Z.pow_succ_r in Ee; last lia. lia.
Qed.
Lemma irr_mod_irr (f : list Z) pn : (1 < size (ZP f))%N -> zin [ringType of 'F_pn] (lead_coef (ZP f)) != 0 -> irreducible_poly (modp pn f) -> forall A B : {poly ZR}, A * B = ZP f -> (size A <= 1)%N || (size B <= 1)%N.
Proof.
  move=> Sf HL [_ Hi] A B E. pose phi := zin_rmorph [fieldType of 'F_pn]. have Em : map_poly phi A * map_poly phi B = modp pn f by rewrite -rmorphM E.
  have HLL : phi (lead_coef A) * phi (lead_coef B) != 0 by rewrite -rmorphM -lead_coefM E. rewrite mulf_eq0 negb_or in HLL. case/andP: HLL => HA HB.
  have SA : size (map_poly phi A) = size A by exact: size_map_poly_id0. have SB : size (map_poly phi B) = size B by exact: size_map_poly_id0.
  have [S1|S1] := eqVneq (size A) 1%N; first by rewrite S1. apply/orP. right. have := Hi (map_poly phi A). rewrite SA S1 -Em dvdp_mulr // => /(_ isT isT) /eqp_size. have A0 : map_poly phi A != 0 by rewrite -lead_coef_eq0 (lead_coef_map_eq HA). have B0 : map_poly phi B != 0 by rewrite -lead_coef_eq0 (lead_coef_map_eq HB).
  rewrite size_mul // SA SB. move: A0. rewrite -size_poly_gt0 SA. move: (size A) (size B) => a b. lia.
Qed.
Lemma single_search (f : list Z) pn t : prime pn -> (0 < t)%N -> (1 < size (ZP f))%N -> prim (ZP f) -> zin [ringType of 'F_pn] (lead_coef (ZP f)) != 0 -> irreducible_poly (modp pn f) ->
  exists r, nv_search (Z.pow (Z.of_nat pn) (Z.of_nat t)) (lead_coef (ZP f)) f (size (ZP f)).-1 [:: f] (bool_vectors 1) = Some r /\ match r with
    | FFComposite g h => [/\ ZP f = ZP g * ZP h, (1 < size (ZP g))%N & (1 < size (ZP h))%N]
    | FFIrreducible => irrp (ZP f) end.
Proof.
  move=> Pp t0 Sf PR HL Hi. have M0 : Z.lt Z0 (Z.pow (Z.of_nat pn) (Z.of_nat t)) by apply: Z.pow_pos_nonneg; have := prime_gt0 Pp; lia.
  apply: (@nv_search_ok f (Z.pow (Z.of_nat pn) (Z.of_nat t)) [:: f]) => //.
  - move=> c _. set A := lead_coef _ *: _. suff [k Hk] : exists k, zin [ringType of 'F_pn] A`_k != 0.
    { apply/eqP => Zq. have := sym_coef A k M0. rewrite Zq coef0 => H. move/eqP: Hk; apply. exact: sym_lift_phi Pp t0 (esym H). }
    have HLL : zin [ringType of 'F_pn] (lead_coef (ZP f) * lead_coef (ZP f)) != 0 by have := zin_mul [ringType of 'F_pn] (lead_coef (ZP f)) (lead_coef (ZP f)) => ->; rewrite mulf_neq0.
    rewrite /A. case Ec: (chosen _ c) => [|i s]; first by exists 0%N; rewrite big_nil coefZ coef1 mulr1.
    have Es : chosen 1 c = [:: 0%N]. { move: Ec. rewrite chosenE /=. by case: ifP => // _ _. } rewrite -[size [:: f]]/1%N Es in Ec. case: Ec => <- <-. exists (size (ZP f)).-1. by rewrite big_cons big_nil mulr1 coefZ -lead_coefE.
  - move=> F H E SF SH. have /orP [] := irr_mod_irr Sf HL Hi E; by rewrite leqNgt ?SF ?SH.
Qed.
Section Sqfree.
Variables (is_irr : Z -> bool) (mf : Z -> list Z -> option (list (list Z * N))).
Hypothesis IR : forall p, prime p -> is_irr (Z.of_nat p).
Hypothesis MF : mfactor_right mf.
Section One.
Variable f : list Z.
Hypothesis Sf : (1 < size (ZP f))%N.
Hypothesis PR : prim (ZP f).
Notation d := (size (ZP f)).-1.
Notation L := (lead_coef (ZP f)).
Variable minimum : N.
(* the same prime is used as in the other version of the algorithm *)
Lemma nv_at pn : prime pn -> nv_at_prime is_irr mf f d minimum (N.of_nat pn) = (do o <- new_at_prime is_irr mf f d minimum (N.of_nat pn); match o with
  | Some st => do r <- nv_search (ap_modulus st) (ap_lc st) f d (ap_factors st) (bool_vectors (size (ap_factors st))); Some (Some r) | None => Some None end).
Proof.
  move=> Pp. rewrite /nv_at_prime /new_at_prime nat_N_Z (p_degree_mod Pp).
  have m0 : modp pn f != 0. { apply/eqP => Zq. have [|q Hq] := PR (d := Z.of_nat pn); last first.
    - have {}Hq : Zpos 1 = Z.mul q (Z.of_nat pn) := Hq. have := prime_gt1 Pp. have : Z.divide (Z.of_nat pn) (Zpos 1) by exists q. move/Z.divide_1_r_abs. lia.
    - move=> i. have : (modp pn f)`_i = 0 by rewrite Zq coef0. have -> : (modp pn f)`_i = zin_rmorph [fieldType of 'F_pn] (ZP f)`_i by exact: coef_map. move/(zin_Fp Pp) => [c Hc]. exists c. rewrite Hc. exact: mulrC. }
  case E: (size (modp pn f)) => [|k]; first by move: m0; rewrite -size_poly_eq0 E. cbn [obind]. case: (Nat.eqb _ _) => //.
  case: (mf _ _) => [l|] //. cbn [obind]. case: (into_hensel_factorization _ _ _ _) => [[F|]|] //. cbn [obind]. case: (lift_until _ _ _) => [F'|] //. cbn [obind]. by case: (z_lead f).
Qed.
Lemma nv_loop_ok q : NatSpec.prime_N q -> zin [ringType of 'F_(N.to_nat q)] L != 0 -> separable_poly (modp (N.to_nat q) f) ->
  forall fuel g, NatProofs2.PGinv g -> N.le (NatModel.pg_n g) q -> N.lt (N.sub q (NatModel.pg_n g)) (N.of_nat fuel) ->
  exists pn S, [/\ prime pn, nv_loop is_irr mf fuel f d minimum g = nv_search (ap_modulus S) (ap_lc S) f d (ap_factors S) (bool_vectors (size (ap_factors S))) & state_ok pn f minimum S].
Proof.
  move=> Hq HL Sep. elim=> [|fuel IH] g I Hg Hf; first lia. cbn [nv_loop].
  have [p [g' [E [I' [Hp [H1 [H2 [H3 H4]]]]]]]] := NatProofs2.next_spec fuel.+1 g q I Hq Hg Hf. rewrite E. cbn [obind fst snd].
  have Pp := primeE Hp. have Ep : p = N.of_nat (N.to_nat p) by lia. rewrite Ep (nv_at Pp) -Ep.
  have [HLp|HLp] := eqVneq (zin [ringType of 'F_(N.to_nat p)] L) 0.
  - have Hne : p <> q by move=> Epq; move: HL; rewrite -Epq HLp eqxx. rewrite {1}Ep (nap_lead0 Pp _ _ _ Sf HLp). cbn [obind]. apply: IH => //; lia.
  - have [N0|[S [ES HS]]] := nap_ok Pp (IR Pp) MF minimum Sf HLp.
    + rewrite {1}Ep N0. cbn [obind]. have Hne : p <> q. { move=> Epq. subst p. have [S [ES _]] := nap_sep Pp (IR Pp) MF minimum Sf HLp Sep. by rewrite N0 in ES. }
      apply: IH => //; lia.
    + exists (N.to_nat p), S. have -> : new_at_prime is_irr mf f d minimum p = Some (Some S) by rewrite Ep. split=> //. cbn [obind]. by case: (nv_search _ _ _ _ _ _).
Qed.
End One.
Definition good (q : N) (f : list Z) := zin [ringType of 'F_(N.to_nat q)] (lead_coef (ZP f)) != 0 /\ separable_poly (modp (N.to_nat q) f).
Lemma nv_find_ok q (f : list Z) : NatSpec.prime_N q -> prim (ZP f) -> (1 < size (ZP f))%N -> good q f -> forall fuel, (N.to_nat q + 2 <= fuel)%N -> exists r, nv_find_factor is_irr mf fuel f = Some r /\ match r with
    | FFComposite g h => [/\ ZP f = ZP g * ZP h, (1 < size (ZP g))%N & (1 < size (ZP h))%N]
    | FFIrreducible => @rprime PZ f end.
Proof.
  move=> Hq Pf Sf [HL Sep] fuel Hf. have f0 : ZP f != 0 := prim_neq0 Pf. rewrite /nv_find_factor.
  have Ed : @p_degree ZO f = Some (size (ZP f)).-1. { rewrite -[ZO]/(mc_ops ZR) p_degreeE. move: f0. rewrite -size_poly_gt0. by case: (size _). }
  rewrite Ed. cbn [obind]. have -> : Nat.eqb (size (ZP f)).-1 0 = false by apply/negbTE; case: (size _) Sf => [|[|]]. cbn [negb].
  have [o [Eo]] := C63_mignotte f. case: o Eo => [b|] Eo; last by move=> Zq; rewrite Zq eqxx in f0. case=> _ Hb. rewrite Eo. cbn [obind].
  have PI : irrp (ZP f) -> @rprime PZ f by case=> _ Hi; apply: (prim_irr_prime Zgcd_ok) => // A B E; apply/orP; exact: Hi A B (esym E).
  case: Nat.eqb_spec => S2.
  { exists FFIrreducible. split=> //. apply: PI. split=> // A B E. have A0 : A != 0 by apply/eqP => Zq; move: f0; rewrite -E Zq mul0r eqxx. have B0 : B != 0 by apply/eqP => Zq; move: f0; rewrite -E Zq mulr0 eqxx.
    have := size_mul A0 B0. rewrite E. move: Sf S2. rewrite -size_poly_gt0 in A0. rewrite -size_poly_gt0 in B0. move: A0 B0. clear. move: (size A) (size B) (size (ZP f)) => x y z. lia. }
  have [||pn [S [Pp Es [gs [t [ES t0 Mm HS]]]]]] := @nv_loop_ok f Sf Pf (N.mul 2 b) q Hq HL Sep fuel NatModel.pg_new NatProofs2.PG_new.
  { case: Hq. cbn [NatModel.pg_new NatModel.pg_n]. lia. } { cbn [NatModel.pg_new NatModel.pg_n]. move: Hf. lia. }
  rewrite Es ES [ap_modulus _]/= [ap_lc _]/= [ap_factors _]/=. have Hb2 : Z.le (Z.mul 2 (Z.of_N b)) (Z.pow (Z.of_nat pn) (Z.of_nat t)) by move: Mm; lia.
  case: HS => [LI|[-> HLp Hi]].
  - have [r [Er Hr]] := lifted_search LI Pf Sf Eo Hb2. exists r. split=> //. by case: r Hr {Er}.
  - have [r [Er Hr]] := single_search Pp t0 Sf Pf HLp Hi. exists r. split=> //. by case: r Hr {Er}.
Qed.
Lemma good_dvd q (f : list Z) (g h : list Z) : NatSpec.prime_N q -> good q f -> ZP f = ZP g * ZP h -> good q g /\ good q h.
Proof.
  move=> Hq [HL Sep] E. have Em : modp (N.to_nat q) f = modp (N.to_nat q) g * modp (N.to_nat q) h by rewrite /modp E; exact: (rmorphM (map_poly_rmorphism (zin_rmorph [ringType of 'F_(N.to_nat q)]))).
  have El : zin [ringType of 'F_(N.to_nat q)] (lead_coef (ZP f)) = zin [ringType of 'F_(N.to_nat q)] (lead_coef (ZP g)) * zin [ringType of 'F_(N.to_nat q)] (lead_coef (ZP h)) by rewrite E lead_coefM; exact: zin_mul.
  rewrite El mulf_eq0 negb_or in HL. case/andP: HL => L1 L2. rewrite Em separable_mul in Sep. case/and3P: Sep => S1 S2 _. by split; split.
Qed.
Lemma nv_fact q (f : list Z) : NatSpec.prime_N q -> prim (ZP f) -> ((1 < size (ZP f))%N -> good q f) -> forall fuel, (N.to_nat q + 2 <= fuel)%N ->
  exists r, [/\ factorize_by_find_factor (R := PZ) zpdiv zpffa (length f + 1)%coq_nat (nv_find_factor is_irr mf fuel) f = Some r, okf Zdiv Zffa r & zex r = ZP f].
Proof.
  move=> Hq Pf Gf fuel Hfu. pose I (e : list Z) := prim (ZP e) /\ ((1 < size (ZP e))%N -> good q e). pose PD := poly_idom Zidom. pose PF := poly_ffa Zidom Zffa_ok.
  have pdvl (A B C : {poly ZR}) : prim A -> A = B * C -> prim B. { move=> HA E c Hc. apply: HA. have [Q EQ] := dvp_fact Hc. rewrite E EQ -scalerAl. exact: dvp_scale. }
  have H1 : forall e, I e -> ~ eqv PZ e (@r0 PZ) -> ~ @runit PZ e -> exists r, nv_find_factor is_irr mf fuel e = Some r /\
    match r with FFIrreducible => @rprime PZ e | FFComposite g h => @req PZ e (@rmul PZ g h) = true /\ (size (ZP g) < size (ZP e))%coq_nat /\ (size (ZP h) < size (ZP e))%coq_nat /\ I g /\ I h end.
  { move=> e [Pe Ge] Hz Hu. have He1 : (1 < size (ZP e))%N by exact: (@nonunit_size ZR).
    have [r [Er Hr]] := nv_find_ok Hq Pe He1 (Ge He1) Hfu. exists r. split=> //. case: r Hr {Er} => // g h [E1 E4 E5].
    have g0 : ZP g != 0 by rewrite -size_poly_gt0; exact: ltn_trans E4. have h0 : ZP h != 0 by rewrite -size_poly_gt0; exact: ltn_trans E5. have Es := size_mul g0 h0. rewrite -E1 in Es.
    have [G1 G2] := good_dvd Hq (Ge He1) E1. split; first by apply/(@p_equalP ZR); rewrite (@pmulE ZR).
    split; last split; last split; last by split=> //; apply: (pdvl _ _ (ZP g) Pe); rewrite mulrC. { move: E4 E5 Es. clear. move: (size (ZP g)) (size (ZP h)) (size (ZP e)) => x y z. lia. } { move: E4 E5 Es. clear. move: (size (ZP g)) (size (ZP h)) (size (ZP e)) => x y z. lia. }
    split=> //. exact: (pdvl _ _ (ZP h) Pe). }
  have H2 : (size (ZP f) < (length f + 1)%coq_nat)%coq_nat by rewrite lengthE; apply/ltP; rewrite plusE addn1 ltnS; exact: size_Poly.
  have H3 : ~ eqv PZ f (@r0 PZ) by move/(@eqvE ZR) => E; have := prim_neq0 Pf; rewrite E eqxx.
  case: (@factorize_by_find_factor_ok PZ zpdiv zpffa PD PF I _ (fun e => size (ZP e)) H1 _ _ H2 (conj Pf Gf) H3) => r [E1 [E2 [E3 [E4 E5]]]].
  exists r. split; [exact: E1|by split|]. exact/(@eqvE ZR).
Qed.
(* one primitive squarefree polynomial *)
Lemma nv_sqfree (f : list Z) : prim (ZP f) -> coprimep (ZP f) (ZP f)^`() -> exists F0, forall fuel, (F0 <= fuel)%N ->
  exists r, [/\ factorize_by_find_factor (R := PZ) zpdiv zpffa (length f + 1)%coq_nat (nv_find_factor is_irr mf fuel) f = Some r, okf Zdiv Zffa r & zex r = ZP f].
Proof.
  move=> Pf Cf. have [S1|S1] := ltnP 1 (size (ZP f)); last first.
  - exists (N.to_nat 2 + 2)%N. apply: nv_fact => //; last by move=> H; move: S1; rewrite leqNgt H. exact: (primeE' (n := 2) isT).
  - have [q [Hq HG]] := good_prime S1 Cf. exists (N.to_nat q + 2)%N. exact: nv_fact.
Qed.
End Sqfree.
