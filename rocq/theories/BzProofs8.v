(* One subset of lifted modular factors: the d-1 test, the candidate and the division. *)
From Coq Require Import List NArith ZArith QArith Bool Sorted.
From mathcomp Require Import all_ssreflect all_algebra.
From mathcomp Require Import zify.
From Coq Require Import Lia.
From Verif Require HenselProofs5.
From Verif Require Import RingSpec RingModel RingProofs2 PermModel MatModel MatSpec ZRing MatInst PolyModel PolySpec PolyProofs PolyProofs2 PolyProofs3 PolyProofs11 PolyProofs12 PolyProps PolyProps3 HenselSpec HenselModel HenselProofs HenselProofs2 BoundModel BoundProofs BoundProofs2 BoundProps BzModel BzProofs1 BzProofs2 BzProofs3 BzProofs5 BzProofs6 BzProofs7.
Close Scope rs_scope. Close Scope Q_scope.
Set Implicit Arguments.
Unset Strict Implicit.
Unset Printing Implicit Defensive.
Import GRing.Theory.
Local Open Scope ring_scope.
Notation ZPs gs := (map (fun g : list Z => ZP g) gs : seq {poly ZR}).

(* what the lifted factorisation satisfies: p prime, p does not divide the leading coefficient, f is the leading coefficient times the product of
   the lifted factors modulo p^t, the factors are monic and their reductions modulo p are irreducible and coprime *)
Record lifted (f : list Z) (gs : list (list Z)) (pn t : nat) : Prop := Lifted {
  li_p : prime pn;
  li_t : (0 < t)%N;
  li_lc : zin [ringType of 'F_pn] (lead_coef (ZP f)) != 0;
  li_mon : forall g, List.In g gs -> ZP g \is monic;
  li_eq : @cong ZR (Z.pow (Z.of_nat pn) (Z.of_nat t)) (ZP f) (lead_coef (ZP f) *: \prod_(g <- gs) ZP g);
  li_irr : forall i, (i < size gs)%N -> irreducible_poly (map_poly (zin [ringType of 'F_pn]) (ZP (nth [::] gs i)));
  li_cop : forall i j, (i < size gs)%N -> (j < size gs)%N -> i != j -> coprimep (map_poly (zin [ringType of 'F_pn]) (ZP (nth [::] gs i))) (map_poly (zin [ringType of 'F_pn]) (ZP (nth [::] gs j)))
}.
Section One.
Variables (f : list Z) (gs : list (list Z)) (pn t : nat).
Hypothesis LI : lifted f gs pn t.
Notation K := [fieldType of 'F_pn].
Notation phi := (zin_rmorph K).
Notation G := (ZPs gs).
Notation F0 := (ZP f).
Notation L := (lead_coef F0).
Notation p := (Z.of_nat pn : ZR).
Notation M := (Z.pow (Z.of_nat pn) (Z.of_nat t)).
Notation rset := (@rset ZR K phi G).
Lemma powE : M = p ^+ t. Proof. elim: t => [|n IH]; first by rewrite expr0. rewrite exprS -IH Nat2Z.inj_succ Z.pow_succ_r; last lia. by []. Qed.
Lemma nG : size G = size gs. Proof. by rewrite size_map. Qed.
Lemma Gi i : (i < size gs)%N -> G`_i = ZP (nth [::] gs i). Proof. move=> H. by rewrite (nth_map [::]). Qed.
Lemma kerp (x : ZR) : phi x = 0 <-> exists c, x = p * c. Proof. exact: (zin_Fp (li_p LI)). Qed.
Lemma Lp : phi L != 0. Proof. exact: li_lc LI. Qed.
Lemma Irr i : (i < size G)%N -> irreducible_poly (map_poly phi G`_i). Proof. rewrite nG => H. rewrite Gi //. exact: (li_irr LI). Qed.
Lemma Cop i j : (i < size G)%N -> (j < size G)%N -> i != j -> coprimep (map_poly phi G`_i) (map_poly phi G`_j).
Proof. rewrite nG => H1 H2 H3. rewrite !Gi //. exact: (li_cop LI). Qed.
Lemma Mon g : g \in G -> g \is monic. Proof. case/mapP => h /HenselProofs5.In_mem Hh ->. exact: (li_mon LI Hh). Qed.
Lemma fC : @cong ZR (p ^+ t) F0 (L *: \prod_(g <- G) g). Proof. rewrite -powE big_map. exact: (li_eq LI). Qed.
Lemma fE : map_poly phi F0 = phi L *: \prod_(g <- G) map_poly phi g.
Proof.
  have H := cong_pow (li_t LI) fC. rewrite expr1 in H. move/(cong_hom kerp): H => ->. by rewrite map_polyZ rmorph_prod.
Qed.
Lemma p2 : Z.le 2 (Z.of_nat pn). Proof. have := prime_gt1 (li_p LI). lia. Qed.
Lemma M2 : Z.le 2 M.
Proof. have H := p2. have := li_t LI. case: t => // n _. rewrite Nat2Z.inj_succ Z.pow_succ_r; last lia. have : Z.lt 0 (Z.pow (Z.of_nat pn) (Z.of_nat n)) by apply: Z.pow_pos_nonneg; lia. nia. Qed.
Lemma M0 : Z.lt Z0 M. Proof. have := M2. lia. Qed.
Lemma Mn0 : (M : ZR) != 0. Proof. apply/eqP => Z. have := M2. rewrite Z. by []. Qed.
Lemma Mnu : (M : ZR) \isn't a GRing.unit.
Proof. apply/negP => /unitrP [y [_ E]]. have H := M2. have {}E : Z.mul M y = (Zpos 1) := E. have : Z.divide M (Zpos 1) by exists y; rewrite Z.mul_comm. move/Z.divide_1_r_abs. lia. Qed.
Lemma mon_gt i : (i < size gs)%N -> ZP (nth [::] gs i) \is monic /\ (1 < size (ZP (nth [::] gs i)))%N.
Proof.
  move=> Hi. have Hm : ZP (nth [::] gs i) \is monic by apply: (li_mon LI); apply/HenselProofs5.In_mem; apply: mem_nth. split=> //.
  have [H _] := li_irr LI Hi. apply: leq_trans H _. exact: size_poly.
Qed.
Lemma size_gi i : (i < size gs)%N -> size (map_poly phi G`_i) = size (ZP (nth [::] gs i)).
Proof. move=> Hi. rewrite Gi //. apply: size_map_poly_id0. have [/monicP -> _] := mon_gt Hi. by rewrite rmorph1 oner_eq0. Qed.
Lemma mem_lt F i : i \in rset F -> (i < size gs)%N. Proof. by rewrite mem_rset nG => /andP []. Qed.
Lemma liftE F H : F * H = F0 -> @cong ZR M (lead_coef H *: F) (L *: \prod_(i <- rset F) ZP (nth [::] gs i)).
Proof.
  move=> E. have [Q [psi [_ HK]]] := quot_hom Zidom Zeuclid Zmono Mn0 Mnu. rewrite powE. have -> : \prod_(i <- rset F) ZP (nth [::] gs i) = \prod_(i <- rset F) G`_i. { rewrite big_seq [RHS]big_seq. apply: eq_bigr => i Hi. by rewrite Gi // (mem_lt Hi). }
  apply: (lift_eq kerp Lp Lp fE Irr Cop (li_t LI) Mon fC (@zin_Fp_surj pn) (psi := psi)) => //. move=> x. by rewrite HK powE.
Qed.
Lemma size_F F H : F * H = F0 -> size F = (\sum_(i <- rset F) (size (ZP (nth [::] gs i))).-1).+1.
Proof. move=> E. rewrite (size_rset Lp Lp fE Irr Cop E) big_seq [in RHS]big_seq. congr S. apply: eq_bigr => i Hi. by rewrite size_gi // (mem_lt Hi). Qed.
Definition sub_ok (s : seq nat) := [/\ sorted ltn s, s <> [::] & forall i, i \in s -> (i < size gs)%N].
Lemma rset_eq F s : sub_ok s -> rset F =i s -> rset F = s.
Proof. case=> H1 _ _ E. apply: (irr_sorted_eq ltn_trans ltnn _ H1 E). apply: sorted_filter; [exact: ltn_trans|exact: iota_ltn_sorted]. Qed.
Lemma F0_neq0 : F0 != 0. Proof. apply/eqP => Z. have := Lp. by rewrite Z lead_coef0 rmorph0 eqxx. Qed.
(* the d-1 test never rules out the set of a true factor *)
Lemma size_leF i : (i < size gs)%N -> (size (ZP (nth [::] gs i)) <= size F0)%N.
Proof.
  move=> Hi. have E := size_F (mulr1 F0). rewrite E. rewrite (rset_f Lp fE) nG. rewrite (bigD1_seq i) /= ?iota_uniq // ?mem_iota //. have [_] := mon_gt Hi. case: (size _) => [|[|m]] // _. lia.
Qed.
Lemma size_gsF : (size gs <= (size F0).-1)%N.
Proof.
  have E := size_F (mulr1 F0). rewrite E [(_).+1.-1]/=. rewrite (rset_f Lp fE) nG. rewrite -{1}(size_iota 0 (size gs)) -sum1_size big_seq [X in (_ <= X)%N]big_seq. apply: leq_sum => i. rewrite mem_iota add0n => Hi. have [_] := mon_gt Hi. by case: (size _) => [|[|m]].
Qed.
Hypothesis HW : Z.lt (Z.of_nat (size F0)) (Z.of_N W).
Lemma dm_ok beta F H : cauchys_root_bound f = Some (Some beta) -> F * H = F0 -> rset F <> [::] ->
  dm_decide (dm_bound M L beta) (prod_in dm_compose (map (dmv M L) gs) (0%num, 0%num) (rset F)) (size (rset F)) = false.
Proof.
  move=> Eb E Hr. apply: (dm_sound M0 Eb E) => //.
  - move=> i /HenselProofs5.In_mem. exact: mem_lt.
  - move=> i Hi. exact: (mon_gt (mem_lt Hi)).
  - exact: liftE.
  - exact: size_F E.
  - move=> i Hi. have := size_leF Hi. move: HW. clear. set x := size (ZP f). set y := size _. lia.
  - have HFs : (size F <= size F0)%N. { have F00 : F != 0 by apply/eqP => Z; have := F0_neq0; rewrite -E Z mul0r eqxx. have H0 : H != 0 by apply/eqP => Z; have := F0_neq0; rewrite -E Z mulr0 eqxx. rewrite -E size_mul //. move: H0. rewrite -size_poly_gt0. clear. move: (size F) (size H) => x y. lia. }
    have HS : (size (rset F) <= size gs)%N. { have -> : size gs = size (iota 0 (size gs)) by rewrite size_iota. apply: uniq_leq_size; first exact: rset_uniq. move=> i /mem_lt. by rewrite mem_iota. }
    have := size_gsF. move: HW HFs HS. clear. set x := size (ZP f). move: (size _) (size _) (size _) => a c d. lia.
Qed.
Notation zprod s := (prod_in (@p_mul (ZQ M)) gs [::] s).
Lemma prodM s : sub_ok s -> @cong ZR M (ZP (zprod s)) (\prod_(i <- s) ZP (nth [::] gs i)).
Proof.
  case=> _. case: s => [|i s] // _ _. rewrite /prod_in big_cons. have Hn j : List.nth j gs [::] = nth [::] gs j by elim: gs j => [|g l IH] [|j] //=. rewrite Hn.
  elim: s (nth [::] gs i) => [|j s IH] a; first by rewrite big_nil mulr1; exact: cong_refl. cbn [List.fold_left]. rewrite big_cons mulrA. apply: cong_trans (IH _) _. apply: cong_mul; last exact: cong_refl. rewrite Hn. exact: (Q_mul Zidom Zeuclid Zmono Mn0 Mnu).
Qed.
Notation Y s := (Poly (map (sym_lift M) (@p_mul ZO [:: L] (zprod s))) : {poly ZR}).
Lemma YM s : sub_ok s -> @cong ZR M (Y s) (L *: \prod_(i <- s) ZP (nth [::] gs i)).
Proof. move=> Hs. apply: cong_trans (Y_cong L M0 _) _. apply: cong_scale. exact: prodM. Qed.
Lemma Ysize s : sub_ok s -> (1 < size (Y s))%N.
Proof.
  move=> Hs. have [_ s0 Hi] := Hs. set P := \prod_(i <- s) ZP (nth [::] gs i).
  have PM : P \is monic by rewrite /P big_seq; apply: monic_prod => i /Hi /mon_gt [].
  have SP : (1 < size P)%N.
  { rewrite /P. case: s s0 Hi {Hs PM P} => [|i s] // _ Hi. rewrite big_cons. have [M1 S1] := mon_gt (Hi i (mem_head _ _)). have M2' : \prod_(j <- s) ZP (nth [::] gs j) \is monic by rewrite big_seq; apply: monic_prod => j Hj; have [] := mon_gt (Hi j (mem_behead (s := i :: s) Hj)).
    rewrite size_monicM // ?monic_neq0 //. have := monic_neq0 M2'. rewrite -size_poly_gt0. move: S1. clear. move: (size _) (size _) => x y. lia. }
  have [c Ec] := YM Hs (size P).-1. rewrite -/P in Ec. rewrite ltnNge. apply/negP => Hle. have Z : (Y s)`_(size P).-1 = 0 by apply: nth_default; apply: leq_trans Hle _; case: (size P) SP => [|[|k]].
  move: Ec. rewrite Z sub0r coefZ -lead_coefE (monicP PM) mulr1 powE => Ec. have := Lp. case/negP. apply/eqP/kerp. exists (- (p ^+ t.-1 * c)). rewrite mulrN mulrA -exprS prednK; last exact: li_t LI. by rewrite -Ec opprK.
Qed.
Hypothesis PR : prim F0.
Lemma prim_dv F H : F * H = F0 -> prim F.
Proof. move=> E d Hd. apply: PR. have [A EA] := dvp_fact Hd. rewrite -E EA -scalerAl. exact: dvp_scale. Qed.
Variable b : N.
Hypothesis MB : mignotte_factor_coefficient_bound f = Some (Some b).
Hypothesis Hb : Z.le (Z.mul 2 (Z.of_N b)) M.
Lemma cand_true s F H : sub_ok s -> F * H = F0 -> rset F = s -> (1 < size H)%N -> Y s = lead_coef H *: F.
Proof.
  move=> Hs E Er HH. apply: Y_true; first exact: M0.
  - apply: cong_trans (liftE E) _. rewrite Er. apply: cong_scale. apply: cong_sym. exact: prodM.
  - move=> j. have HF : (1 < size F)%N. { rewrite (rset_nonconst Lp Lp fE Irr Cop E) Er. by case: s Hs {Er} => [|i s] // -[]. } have := mignotte_strict MB E HH HF j. have -> : (lead_coef H *: F)`_j = Z.mul (lead_coef H) F`_j by rewrite coefZ. move: Hb. clear. set x := Z.abs _. lia.
Qed.
Lemma cand_div s (g : {poly ZR}) c : sub_ok s -> Y s = c *: g -> rset g =i s.
Proof.
  move=> Hs E. have [_ s0 Hi] := Hs. apply: (rset_cand kerp Lp Irr Cop (c := c) (X := Y s)) => //.
  - case: Hs => + _ _. move=> H. exact: (sorted_uniq ltn_trans ltnn H).
  - move=> i /Hi. by rewrite mem_iota nG.
  - have -> : \prod_(i <- s) G`_i = \prod_(i <- s) ZP (nth [::] gs i). { rewrite big_seq [RHS]big_seq. apply: eq_bigr => i /Hi H. by rewrite Gi. }
    have := YM Hs. rewrite powE. rewrite -{3}(expr1 p). exact: cong_pow (li_t LI).
Qed.
End One.
