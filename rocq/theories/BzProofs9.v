(* The rounds of factor_by_try_all_subsets. *)
From Coq Require Import List NArith ZArith QArith Bool Sorted.
From mathcomp Require Import all_ssreflect all_algebra.
From mathcomp Require Import zify.
From Coq Require Import Lia.
From Verif Require HenselProofs5.
From Verif Require Import SetsModel SetsSpec SetsProofs1 SetsProofs2.
From Verif Require Import RingSpec RingModel RingProofs RingProofs2 FactoredSpec FactoredModel FactoredProofs PermModel MatModel MatSpec ZRing MatInst PolyModel PolySpec PolyProofs PolyProofs2 PolyProofs3 PolyProofs11 PolyProofs12 PolyProps PolyProps3 FacModel FacProofs FacProofs2 FacProofs3 FacProofs4 HenselSpec HenselModel HenselProofs HenselProofs2 BoundModel BoundProofs BoundProofs2 BoundProps BzModel BzProofs1 BzProofs2 BzProofs3 BzProofs5 BzProofs6 BzProofs7 BzProofs8.
Close Scope rs_scope. Close Scope Q_scope.
Set Implicit Arguments.
Unset Strict Implicit.
Unset Printing Implicit Defensive.
Import GRing.Theory.
Local Open Scope ring_scope.
Notation zpdiv := (@pdivr ZO Zdiv).
Notation zpffa := (@pffar ZO Zdiv Zffa).
Notation zex := (fun r : factored PZ => (Poly (@expand PZ r) : {poly ZR})).

(* a primitive irreducible polynomial as a Factored value *)
Lemma Zirr_fact (g : list Z) : prim (ZP g) -> irrp (ZP g) ->
  okf Zdiv Zffa (@factored_irreducible_unchecked PZ zpffa g) /\ zex (@factored_irreducible_unchecked PZ zpffa g) = ZP g.
Proof.
  move=> Hp [S1 Hi]. have f0 : ZP g != 0 by rewrite -size_poly_gt0; apply: ltn_trans S1. pose PD := poly_idom Zidom. pose PF := poly_ffa Zidom Zffa_ok.
  have Hr : @rprime PZ g. { apply: (prim_irr_prime Zgcd_ok) => // A B E. have /orP := Hi A B (esym E). by []. }
  have Hz : ~ eqv PZ g (@r0 PZ) by move/(@eqvE ZR) => E; move: f0; rewrite E eqxx.
  case: (@factorize_by_find_factor_ok PZ zpdiv zpffa PD PF (fun e => e = g) (fun _ => Some FFIrreducible) (fun _ => 0%N) _ 1%N g) => //; first by move=> e -> _ _; exists FFIrreducible.
  move=> r [E1 [E2 [E3 [E4 E5]]]]. have Er : r = @factored_irreducible_unchecked PZ zpffa g.
  { move: E1. cbn [factorize_by_find_factor]. case Ez: (@is_zero PZ g); first by case: Hz; exact: Ez. case Eu: (@is_unit PZ zpdiv g) => [] [<-] //. exfalso. have [_ [Hu _]] := Hr. apply: Hu. exact: ((is_unit_ok PZ (poly_ring _) zpdiv PD g).1 Eu). }
  rewrite -Er. split=> //. exact/(@eqvE ZR).
Qed.
(* sorted lists in the two libraries *)
Lemma sorted_SS (s : seq nat) : sorted ltn s <-> StronglySorted lt s.
Proof.
  split.
  - elim: s => [|x s IH] H; first by constructor. constructor; first by apply: IH; exact: path_sorted H. apply/Forall_forall => y /HenselProofs5.In_mem Hy. have /allP /(_ y Hy) := order_path_min ltn_trans H. by move/ssrnat.ltP.
  - elim=> [|x {}s H1 H2 H3] //. rewrite /= path_min_sorted //. apply/allP => y /HenselProofs5.In_mem Hy. move/Forall_forall: H3 => /(_ y Hy) /ssrnat.ltP. by [].
Qed.
Section Round.
Variables (f : list Z) (gs : list (list Z)) (pn t : nat).
Hypothesis LI : lifted f gs pn t.
Notation K := [fieldType of 'F_pn].
Notation phi := (zin_rmorph K).
Notation G := (ZPs gs).
Notation F0 := (ZP f).
Notation L := (lead_coef F0).
Notation M := (Z.pow (Z.of_nat pn) (Z.of_nat t)).
Notation rset := (@rset ZR K phi G).
Notation n := (size gs).
Hypothesis HW : Z.lt (Z.of_nat (size F0)) (Z.of_N W).
Hypothesis PR : prim F0.
Variable b : N.
Hypothesis MB : mignotte_factor_coefficient_bound f = Some (Some b).
Hypothesis Hb : Z.le (Z.mul 2 (Z.of_N b)) M.
Variable beta : Q.
Hypothesis EB : cauchys_root_bound f = Some (Some beta).
Variables (cf dg : nat).
Notation S := (AtPrime f L dg M gs).
Notation vals := (map (dmv M L) gs).
Notation dz := (0%num, 0%num).
Notation dmb := (dm_bound M L beta).
Record good (k : nat) (st : bz_state) : Prop := Good {
  go_ok : okf Zdiv Zffa (bz_factored st);
  go_eq : ZP (bz_f st) * zex (bz_factored st) = F0;
  go_exc : forall i, (i < n)%N -> (i \in rset (ZP (bz_f st))) = (i \notin bz_excluded st);
  go_lt : forall i, List.In i (bz_excluded st) -> (i < n)%N;
  go_m : bz_m st = size (rset (ZP (bz_f st)));
  go_dm : mem_ok dm_compose vals dz (bz_dmem st);
  go_pm : mem_ok (@p_mul (ZQ M)) gs [::] (bz_pmem st);
  go_J : J phi G k (ZP (bz_f st))
}.
Lemma exclude_all_ok k l : (forall i, List.In i l -> (i < n)%N) -> forall c LL, Inv n k c -> Pend k c LL -> (length LL + 2 <= cf)%coq_nat ->
  exists c' LL', [/\ exclude_all cf c l = Some c', Inv n k c', Pend k c' LL', (forall s, List.In s LL' <-> List.In s LL /\ forall a, List.In a l -> ~ List.In a s) & (length LL' <= length LL)%coq_nat].
Proof.
  elim: l => [|a l IH] Hl c LL HI HP Hf. { exists c, LL. split=> //. move=> s. split=> [H|[]] //. }
  have Ha : (a < n)%coq_nat by apply/ssrnat.ltP; apply: Hl; left. have [c1 [E1 [I1 P1]]] := @exclude_refines n k c LL a cf Ha HI HP Hf.
  have Hlen : (length (List.filter (avoids a) LL) <= length LL)%coq_nat by elim: (LL) => [|x y IHl] //=; case: avoids => /=; lia.
  have [|c' [LL' [E2 I2 P2 H2 H3]]] := IH (fun i Hi => Hl i (or_intror Hi)) c1 _ I1 P1; first lia.
  exists c', LL'. split=> //; [by cbn [exclude_all]; rewrite E1; cbn [obind]| |lia].
  move=> s. rewrite H2 filter_In. split.
  - case=> [[H4 /avoids_spec H5] H6]. split=> // a' [<-|]; [exact: H5|exact: H6].
  - case=> H4 H5. split; last by move=> a' Ha'; apply: H5; right. split=> //. apply/avoids_spec. apply: H5. by left.
Qed.
Lemma sub_gs k s : (0 < k)%N -> is_k_subset n k s -> sub_ok gs s /\ size s = k.
Proof.
  move=> k0 [H1 [H2 H3]]. split=> //. split; first exact/sorted_SS.
  - move=> Z. move: H1. rewrite Z /= => H1. by rewrite -H1 in k0.
  - move=> i /HenselProofs5.In_mem Hi. move/Forall_forall: H3 => /(_ i Hi) /ssrnat.ltP. by [].
Qed.
Lemma round_ok (h : bool) (a k : nat) : (0 < k)%N -> (k < n)%N -> forall N LL c st fuel, (length LL <= N)%coq_nat -> good k st -> Inv n k c -> Pend k c LL ->
  (forall s, List.In s LL -> is_k_subset n k s /\ {subset s <= rset (ZP (bz_f st))}) ->
  (forall s, sorted ltn s -> size s = k -> {subset s <= rset (ZP (bz_f st))} -> (h -> a \notin s) -> List.In s LL \/ bad phi G (ZP (bz_f st)) s) ->
  (h -> size (rset (ZP (bz_f st))) = k.*2 \/ (size (rset (ZP (bz_f st))) <= k)%N) ->
  (length LL < fuel)%coq_nat -> (length LL + 2 <= cf)%coq_nat -> exists st', bz_round cf S dmb vals fuel k c st = Some st' /\ good k.+1 st'.
Proof.
  move=> k0 kn. elim=> [|N IH] LL c st fuel HN HG HI HP Hsub Hcov Hh Hfu Hcf; (case: fuel Hfu => [|fuel] Hfu; first lia); cbn [bz_round];
    have [o [c1 [E1 [I1 [P1 [Eo _]]]]]] := @next_refines n k c LL HI HP; rewrite E1; cbn [obind]; rewrite Eo; case: LL HN HP Hsub Hcov Hfu Hcf P1 {Eo} => [|s LL] HN HP Hsub Hcov Hfu Hcf P1; cbn [hd_error List.tl] in P1 |- *.
  1,3: exists st; split=> //; case: HG => G1 G2 G3 G3' G4 G5 G6 G7; split=> //; apply: J_next => //; apply: (round_end (a := a) (h := h) (Lp LI) (fE LI) (Irr LI) (Cop LI) G2) => //; move=> s H1 H2 H3 H4; by case: (Hcov s H1 H2 H3 H4).
  { cbn [List.length] in HN. lia. }
  have [Hs Hsf] := Hsub s (or_introl erefl). have [So Ss] := sub_gs k0 Hs. have [So1 So2 So3] := So.
  have HiV i : List.In i s -> (i < length vals)%N by rewrite lengthE size_map => /HenselProofs5.In_mem; exact: So3.
  have HiG i : List.In i s -> (i < length gs)%N by move/HenselProofs5.In_mem; exact: So3.
  case: (HG) => G1 G2 G3 G3' G4 G5 G6 G7. rewrite /dm_test.
  have [dm' [E2 D2]] := ms_get_ok G5 So2 HiV. rewrite E2. cbn [obind fst snd].
  have HX : ZP (bz_f st) * zex (bz_factored st) = F0 := G2.
  (* a subset that is not a true factor: go on *)
  have cont st' : bz_factored st' = bz_factored st -> bz_excluded st' = bz_excluded st -> bz_f st' = bz_f st -> bz_m st' = bz_m st -> mem_ok dm_compose vals dz (bz_dmem st') -> mem_ok (@p_mul (ZQ M)) gs [::] (bz_pmem st') ->
    bad phi G (ZP (bz_f st)) s -> exists st'', bz_round cf S dmb vals fuel k c1 st' = Some st'' /\ good k.+1 st''.
  { move=> A1 A2 A3 A4 A5 A6 A7. apply: (IH LL) => //; try (by move: HN Hfu Hcf => /=; lia).
    - split=> //; by rewrite ?A1 ?A2 ?A3 ?A4.
    - move=> s' Hs'. rewrite A3. apply: Hsub. by right.
    - move=> s' B1 B2 B3 B4. rewrite A3 in B3 *. case: (Hcov s' B1 B2 B3 B4) => [[<-|]|]; [by right|by left|by right].
    - by rewrite A3. }
  case Ed: (dm_decide _ _ _).
  { apply: cont => //. move=> F H EF Er. have Er' := rset_eq So Er. have EF' : F * (H * zex (bz_factored st)) = F0 by rewrite mulrA EF. have := dm_ok LI HW EB EF'. rewrite Er' Ed. by move/(_ So2). }
  have [pm' [E3 D3]] := ms_get_ok G6 So2 HiG. rewrite [ap_modulus _]/= [ap_factors _]/= [ap_lc _]/= E3. cbn [obind fst snd].
  have [cc [g [E4 E5 c0 Pg]]] := candidate_ok (Ysize LI So). rewrite E4. cbn [obind]. rewrite (p_div_total Zidom). cbn [obind].
  have Rg : rset (ZP g) =i s := cand_div LI So E5.
  have := pdivP Zidom (bz_f st) g. case: (pdiv _ _) => [hh||].
  - (* divides *)
    case=> g0 Ef. have Ef' : ZP g * ZP hh = ZP (bz_f st) by rewrite mulrC. have Rg' := rset_eq So Rg.
    have Hir : irrp (ZP g). { apply: (irr_found (k := k) (Lp LI) (Lp LI) (fE LI) (Irr LI) (Cop LI) Ef' HX) => //. by rewrite Rg'. }
    have Hm : size (rset (ZP (bz_f st))) = (k + size (rset (ZP hh)))%N by rewrite (rsize (Lp LI) (fE LI) (Irr LI) (Cop LI) Ef' HX) Rg' Ss.
    have -> : Nat.leb k (bz_m st) by apply/Nat.leb_le; rewrite G4 Hm; lia. cbn [obind].
    have [|c2 [LL2 [E6 I2 P2 H2 Hl2]]] := exclude_all_ok (k := k) (l := s) HiG I1 P1; first by move: Hcf => /=; lia. rewrite E6. cbn [obind].
    have [O2 X2] := Zirr_fact Pg Hir. have [O3 X3] := ex_mul Zidom Zffa_ok G1 O2. rewrite X2 in X3.
    have Dj i : i \in s -> i \in rset (ZP hh) -> False. { rewrite -Rg => A1 A2. apply: (rset_disj (Lp LI) (fE LI) (Irr LI) (Cop LI) (F1 := ZP g) (F2 := ZP hh) (H := zex (bz_factored st)) _ A1 A2). by rewrite Ef'. }
    have Un i : (i \in rset (ZP (bz_f st))) = (i \in s) || (i \in rset (ZP hh)). { rewrite -Ef' -Rg. apply: (rset_mul (Irr LI)). by rewrite Ef'; exact: HX. }
    apply: (IH LL2) => //; cbn [bz_f]; try (by move: HN Hfu Hcf => /=; lia).
    + split=> //; cbn [bz_f bz_factored bz_excluded bz_m bz_dmem bz_pmem].
      * rewrite X3. by rewrite -HX -Ef' mulrA mulrC mulrA.
      * move=> i Hi. rewrite mem_cat negb_or -(G3 i Hi) Un. case Es: (i \in s); last by rewrite andbT. rewrite andbF. apply/negbTE/negP. exact: Dj.
      * move=> i. rewrite in_app_iff => -[|Hi]; [exact: G3'|]. exact: HiG.
      * rewrite G4 Hm. lia.
      * apply: (J_found (Lp LI) (fE LI) (Irr LI) (Cop LI) Ef' HX G7). rewrite Rg'. by case: (s) So2.
    + move=> s' /H2 [Hs' Ha]. have [A1 A2] := Hsub s' (or_intror Hs'). split=> // i Hi. have := A2 i Hi. rewrite Un. case/orP => // Hi2. exfalso. apply: (Ha i); exact/HenselProofs5.In_mem.
    + move=> s' B1 B2 B3 B4. have B3' : {subset s' <= rset (ZP (bz_f st))} by move=> i /B3; rewrite Un => ->; rewrite orbT.
      case: (Hcov s' B1 B2 B3' B4) => [[Es|HL]|Hbd].
      * exfalso. rewrite -Es in B3. case: (s) So2 B3 Dj => [|i s1] // _ B3 Dj. exact: (Dj i (mem_head _ _) (B3 i (mem_head _ _))).
      * left. apply/H2. split=> // i /HenselProofs5.In_mem Hi /HenselProofs5.In_mem Hi2. exact: (Dj i Hi (B3 i Hi2)).
      * right. move=> F H EF. apply: (Hbd F (H * ZP g)). by rewrite mulrA EF mulrC.
    + move=> hT. move: (Hh hT). rewrite Hm -addnn. clear. move: (size _) => x. lia.
  - move=> Z. exfalso. have := prim_neq0 Pg. by rewrite Z eqxx.
  - (* does not divide *)
    case=> g0 Hnd. apply: cont => //. move=> F H EF Er. have Er' := rset_eq So Er. have EF' : F * (H * zex (bz_factored st)) = F0 by rewrite mulrA EF.
    have HH : (1 < size (H * zex (bz_factored st))%R)%N.
    { have EF2 : (H * zex (bz_factored st)) * F = F0 by rewrite mulrC. rewrite (rset_nonconst (Lp LI) (Lp LI) (fE LI) (Irr LI) (Cop LI) EF2). have := rsize (Lp LI) (fE LI) (Irr LI) (Cop LI) EF' (mulr1 F0). rewrite (rset_f (Lp LI) (fE LI)) size_iota size_map Er' Ss. case: (rset _) => //=. lia. }
    have EY := cand_true LI MB Hb So EF' Er' HH. rewrite E5 in EY. have PF := prim_dv PR EF'.
    have l0 : lead_coef (H * zex (bz_factored st)) != 0 by rewrite lead_coef_eq0 -size_poly_gt0; exact: ltn_trans HH.
    have Eq : ZP g %= F. { apply: (eqp_trans (y := cc *: ZP g)); first by rewrite eqp_sym; apply: eqp_scale. rewrite EY. exact: eqp_scale. }
    have Eq2 : F %= ZP g by rewrite eqp_sym. have [w [[w1 Ew] Egw]] := prim_eqp Zgcd_ok PF Pg Eq2.
    apply: (Hnd (w *: H)). by rewrite -EF Egw -!scalerAl mulrC.
Qed.
End Round.
