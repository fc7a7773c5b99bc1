(* building a Hensel factorisation *)
From Coq Require Import List Arith NArith Bool.
From mathcomp Require Import all_ssreflect all_algebra.
From mathcomp Require Import zify.
From Coq Require Import Lia Ring.
From Verif Require Import RingSpec RingModel RingProofs RingProofs2 PermModel MatModel MatSpec MatInst PolyModel PolyProofs PolyProofs2 PolyProofs3 PolyProps PolyHom McRing QuotRing HenselSpec HenselModel HenselProofs HenselProofs2 HenselProofs3 HenselProofs4.
Close Scope rs_scope.
Set Implicit Arguments.
Unset Strict Implicit.
Unset Printing Implicit Defensive.
Import GRing.Theory.
Local Open Scope ring_scope.

Lemma firstnE (A : Type) n (l : seq A) : List.firstn n l = take n l. Proof. by elim: l n => [|x l IH] [|n] //=; rewrite IH. Qed.
Lemma skipnE (A : Type) n (l : seq A) : List.skipn n l = drop n l. Proof. by elim: l n => [|x l IH] [|n] //=. Qed.
Lemma In_mem (A : eqType) (x : A) l : List.In x l <-> x \in l.
Proof. elim: l => //= y l IH. rewrite inE. split=> [[->|/IH ->]|/orP[/eqP ->|/IH]]; rewrite ?eqxx ?orbT; auto. Qed.

Section T.
Variable R : idomainType.
Notation O := (mc_ops R).
Variables (div : div_op O) (ffa : ffa_op O) (norm : R -> option N) (quorem : R -> R -> option (R * R)).
Hypothesis D : idom_laws O div.
Hypothesis F : ffa_laws O ffa.
Hypothesis E : euclid_laws O norm quorem.
Hypothesis M : norm_mono O norm.
Variable is_irr : R -> bool.
Notation rm m := (q_rem (R := O) quorem m).
Notation hp := (@hprod O).
Notation lc h := (lead_coef (Poly h)).
Variable p : R.
Hypothesis Hirr : @irreducible O p.
Hypothesis Hirr' : is_irr p.
Hypothesis small : forall k, (0 < k)%N -> rm (p ^+ k) 1 = 1.
Let p0 := p0 Hirr.
Let pu := pu Hirr.
Lemma prodE (l : seq (seq R)) : Poly (@product (poly_ops O) l) = \prod_(f <- l) Poly f.
Proof.
  rewrite /product. have L : forall s, Poly (List.fold_left (@rmul (poly_ops O)) l s) = Poly s * \prod_(f <- l) Poly f.
  { elim: l => [|x l IH] s; first by rewrite big_nil mulr1. cbn [List.fold_left]. rewrite IH -[@rmul _ _ _]/(@p_mul O s x) p_mulE Poly_polyseq big_cons mulrA. by []. }
  by rewrite L -[@r1 _]/([:: (1:R)]) Poly1 mul1r.
Qed.
Lemma prem_monic m (f : seq R) : m != 0 -> rm m 1 = 1 -> Poly f \is monic ->
  let f' := @rem_map O quorem m f in Poly f' \is monic /\ size (Poly f') = size (Poly f).
Proof.
  move=> m0 R1 Mf f'. have C k : (Poly f')`_k = rm m (Poly f)`_k by rewrite /f' (prem_coef D E M m0).
  have Sf : (0 < size (Poly f))%N by rewrite size_poly_gt0 monic_neq0. set d := (size (Poly f)).-1.
  have Ed : size (Poly f) = d.+1 by rewrite /d prednK.
  have C1 : (Poly f')`_d = 1 by rewrite C -/(lead_coef (Poly f)) (monicP Mf).
  have S : size (Poly f') = d.+1.
  { apply/eqP. rewrite eqn_leq. apply/andP; split.
    - apply/leq_sizeP => j Hj. by rewrite C [(Poly f)`_j]nth_default ?Ed // (q_rem0 D E M m0).
    - rewrite ltnNge. apply/negP => H. move: C1. rewrite nth_default // => /eqP. by rewrite eq_sym oner_eq0. }
  split; last by rewrite S Ed. by rewrite monicE /lead_coef S C1.
Qed.
Definition good (f : seq R) : bool := (Poly f \is monic) && (1 < size (Poly f))%N.
Definition pairwise_coprime (fs : seq (seq R)) : Prop := forall j k, (j < k)%N -> (k < size fs)%N -> coprime_mod p (Poly (nth [::] fs j)) (Poly (nth [::] fs k)).
Lemma prod_monic (fs : seq (seq R)) : all good fs -> \prod_(f <- fs) Poly f \is monic.
Proof. move=> H. rewrite big_seq. apply: monic_prod => f Hf. by have /allP /(_ f Hf) /andP[] := H. Qed.
Lemma prod_size (fs : seq (seq R)) : all good fs -> (0 < size fs)%N -> (1 < size (\prod_(f <- fs) Poly f)%R)%N.
Proof.
  case: fs => //= f fs /andP[/andP[Mf Sf] H] _. rewrite big_cons. have Mp := prod_monic H. rewrite size_Mmonic //; last exact: monic_neq0.
  have : (0 < size (\prod_(f <- fs) Poly f)%R)%N by rewrite size_poly_gt0 monic_neq0. move: Sf. set x := size _. set y := size _. lia.
Qed.
Lemma himpl_ok (n : N) : (0 < N.to_nat n)%N -> forall fuel h fs, (0 < size fs <= fuel)%N -> all good fs -> pairwise_coprime fs -> Poly h != 0 -> comax (lc h) p ->
  cong (p ^+ N.to_nat n) (Poly h) ((lc h)%:P * \prod_(f <- fs) Poly f) ->
  exists t, [/\ @himpl_new O div ffa norm quorem is_irr fuel p n h fs = Some t, inv p 1 (N.to_nat n) h t &
    (1 < size fs)%N \/ (Poly h \is monic /\ size (Poly h) = size (\prod_(f <- fs) Poly f)) -> List.Forall2 (lifts p (N.to_nat n)) fs (@factor_list O h t)].
Proof.
  move=> n0. elim=> [|fuel IH] h fs; first by rewrite leqn0; case: (size fs).
  case: fs => [//|f1 [_|f2 fs0]].
  - move=> G _ h0 _ C. exists (@Leaf O). split=> // -[//|[Mh Sh]]. constructor; last by constructor. move: C Sh. rewrite big_seq1 (monicP Mh) mul1r => C Sh.
    move: G => /= /andP[/andP[Mf1 _] _]. split=> //. by rewrite (monicP Mh) (monicP Mf1).
  - set fs := f1 :: f2 :: fs0 => Hs G PC h0 CM C. cbn [himpl_new]. rewrite -/fs firstnE skipnE lengthE. set k := Nat.div (size fs) 2.
    have s2 : (2 <= size fs)%N by []. have Hk : (0 < k)%N /\ (k < size fs)%N. { rewrite /k. have := Nat.div_mod (size fs) 2. have := Nat.mod_upper_bound (size fs) 2. move: s2. lia. }
    case: Hk => k0 k1. set l1 := take k fs. set l2 := drop k fs. have El : l1 ++ l2 = fs by rewrite cat_take_drop.
    have S1 : size l1 = k by rewrite size_take k1. have S2 : size l2 = (size fs - k)%N by rewrite size_drop.
    have [G1 G2] : all good l1 /\ all good l2 by apply/andP; rewrite -all_cat El.
    rewrite p_leading_coeffE (negbTE h0). cbn [obind]. have [u [v [-> Huv]]] := h_xgcd_ok D F E CM. cbn [obind fst]. rewrite [@req O _ _]eqxx Hirr' [@is_zero O p](negbTE p0). cbn [negb].
    rewrite nat_powE. set m := p ^+ _. have m0 : m != 0 by rewrite expf_neq0. have mu : m \isn't a GRing.unit by rewrite unitrX_pos.
    set h1 := rem_map _ _ _. set h2 := rem_map _ _ _.
    have Ph (l : seq (seq R)) : all good l -> let h' := @rem_map O quorem m (@product (poly_ops O) l) in
       [/\ Poly h' \is monic, size (Poly h') = size (\prod_(f <- l) Poly f) & cong m (Poly h') (\prod_(f <- l) Poly f)].
    { move=> Gl h'. have Mp := prod_monic Gl. rewrite -prodE in Mp *. have [H1 H2] := prem_monic m0 (small n0) Mp. split=> //. exact: (premE D E M m0). }
    have [M1 Sh1 C1] := Ph _ G1. have [M2 Sh2 C2] := Ph _ G2. rewrite -/h1 in M1 Sh1 C1. rewrite -/h2 in M2 Sh2 C2.
    have CP : coprime_mod p (Poly h1) (Poly h2).
    { have [U [V HUV]] : coprime_mod p (\prod_(f <- l1) Poly f) (\prod_(f <- l2) Poly f).
      { apply: (coprime_mod_prod D F E M Hirr) => f g /In_mem Hf /In_mem Hg.
        have jf : (index f l1 < k)%N by rewrite -S1 index_mem. have jg : (index g l2 < size l2)%N by rewrite index_mem.
        have N1 : nth [::] fs (index f l1) = f by rewrite -El nth_cat S1 jf nth_index.
        have N2 : nth [::] fs (k + index g l2) = g by rewrite -El nth_cat S1 ltnNge leq_addr /= addKn nth_index.
        rewrite -N1 -N2. apply: PC; rewrite ?N1 ?N2; first by apply: leq_trans jf (leq_addr _ _). move: jg. rewrite S2 ltn_subRL. by []. }
      exists U, V. apply: cong_trans HUV. rewrite -[p]expr1. have Hp1 : (1 <= N.to_nat n)%N by []. apply: cong_add; (apply: cong_mul; first exact: cong_refl); [exact: cong_pow Hp1 C1|exact: cong_pow Hp1 C2]. }
    have [w [a [b [-> Hw Hab]]]] := p_xgcd_ok D F E M Hirr CP. cbn [obind]. rewrite Hw.
    have PC1 : pairwise_coprime l1. { move=> j j' Hj Hj'. rewrite S1 in Hj'. rewrite !nth_take //; last exact: ltn_trans Hj Hj'. apply: PC => //. exact: ltn_trans Hj' k1. }
    have PC2 : pairwise_coprime l2. { move=> j j' Hj Hj'. rewrite !nth_drop. apply: PC; first by rewrite ltn_add2l. by rewrite -ltn_subRL -S2. }
    have comax1 (h' : seq R) : Poly h' \is monic -> comax (lc h') p by move=> /monicP ->; exists 1, 0; rewrite mul1r mul0r addr0.
    have mon (h' : seq R) l : Poly h' \is monic -> cong m (Poly h') (\prod_(f <- l) Poly f) -> cong m (Poly h') ((lc h')%:P * \prod_(f <- l) Poly f) by move=> /monicP ->; rewrite mul1r.
    have z1 : (0 < size l1 <= fuel)%N by rewrite S1 k0 -ltnS /=; apply: leq_trans k1 (proj2 (andP Hs)).
    have z2 : (0 < size l2 <= fuel)%N by rewrite S2 subn_gt0 k1 leq_subLR; apply: leq_trans (proj2 (andP Hs)) _; rewrite -add1n leq_add2r.
    have [t1 [-> I1 F1]] := IH h1 l1 z1 G1 PC1 (monic_neq0 M1) (comax1 _ M1) (mon _ _ M1 C1).
    have [t2 [-> I2 F2]] := IH h2 l2 z2 G2 PC2 (monic_neq0 M2) (comax1 _ M2) (mon _ _ M2 C2).
    cbn [obind]. exists (@Branch O h1 t1 h2 t2 a b). 
    have Ch : cong m (Poly h) ((lc h)%:P * Poly h1 * Poly h2).
    { apply: cong_trans C _. rewrite -El big_cat /= -mulrA. apply: cong_mul; first exact: cong_refl. by apply: cong_mul; apply: cong_sym. }
    have CM' : comax (lc h) m.
    { have [u' [v' Huv']] := CM. rewrite /m. elim: (N.to_nat n) => [|j [u2 [v2 IH2]]]; first by exists 0, 1; rewrite mul0r add0r mul1r expr0.
      exists (u2 + v2 * (p ^+ j) * u'), (v2 * v'). rewrite exprS. exact: comax_id Huv' IH2. }
    split=> //.
    + cbn [inv]. split; last by split=> //; split=> //; rewrite expr1. split=> //.
      have [_ ->] := size_fact m0 mu CM' M1 M2 Ch. have := prod_size G1 (proj1 (andP z1)). have := prod_size G2 (proj1 (andP z2)). rewrite -Sh1 -Sh2. clear. set x := size _. set y := size _. clearbody x y. lia.
    + move=> _. rewrite -El. cbn [factor_list]. apply: List.Forall2_app; [apply: F1|apply: F2]; by right.
Qed.
(* the whole constructor *)
Lemma h_new_ok (lifted : bool) (n : N) h fs : (0 < N.to_nat n)%N -> (lifted -> N.to_nat n <= 1)%N -> (0 < size fs)%N -> all good fs -> pairwise_coprime fs -> Poly h != 0 -> comax (lc h) p ->
  cong (p ^+ N.to_nat n) (Poly h) ((lc h)%:P * \prod_(f <- fs) Poly f) ->
  exists t, [/\ @h_new O div ffa norm quorem is_irr lifted p n h fs = Some (@HFact O p n h t), inv p 1 (N.to_nat n) h t &
    (1 < size fs)%N -> List.Forall2 (lifts p (N.to_nat n)) fs (@factor_list O h t)].
Proof.
  move=> n0 Hl fs0 G PC h0 CM C. have Hfu : (0 < size fs <= size fs)%N by rewrite fs0 leqnn. have [t [Ht It Ft]] := himpl_ok n0 Hfu G PC h0 CM C.
  rewrite /h_new Hirr' lengthE. have -> : Nat.leb 1 (size fs) by apply/Nat.leb_spec0; move: fs0; set x := size _; lia.
  have -> : List.forallb (fun f => @p_is_monic O f) fs. { rewrite forallbE. apply/allP => f Hf. rewrite p_is_monicE. by have /allP /(_ f Hf) /andP[] := G. }
  rewrite nat_powE. set m := p ^+ _. have m0 : m != 0 by rewrite expf_neq0. have mu : m \isn't a GRing.unit by rewrite unitrX_pos.
  rewrite [@is_zero O m](negbTE m0). cbn [negb]. rewrite p_leading_coeffE (negbTE h0). cbn [obind].
  have -> : @p_equal (@quotient_ops O quorem m) h (@p_mul (@quotient_ops O quorem m) [:: lc h] (@product (poly_ops (@quotient_ops O quorem m)) fs)).
  { apply/(Q_equal D E M m0 mu). apply: cong_trans C _. apply: cong_sym. apply: cong_trans (Q_mul D E M m0 mu _ _) _. rewrite Poly1. apply: cong_mul; first exact: cong_refl. exact: (Q_product D E M m0 mu). }
  rewrite Ht. cbn [obind h_check h_t h_h h_i h_n]. rewrite /h_check. cbn [h_t h_h h_i h_n]. rewrite (check_ok D E M p0 pu n0 _ Hl It) //. cbn [obind].
  exists t. split=> // Hs. apply: Ft. by left.
Qed.
(* the product of the factors *)
Lemma prod_factors n h t : Poly h \is monic -> inv p 1 n h t -> cong (p ^+ n) (Poly h) (\prod_(f <- @factor_list O h t) Poly f).
Proof.
  elim: t h => [|f ff IHf g gf IHg a b] h Mh; first by move=> _ /=; rewrite big_seq1; exact: cong_refl.
  cbn [inv factor_list]. move=> [[Mf Mg _ _] [C [_ [If Ig]]]]. rewrite big_cat /=. apply: cong_trans C _. rewrite (monicP Mh) mul1r. by apply: cong_mul; [exact: IHf|exact: IHg].
Qed.
Lemma prod_factors_top n h t : t <> @Leaf O -> inv p 1 n h t -> cong (p ^+ n) (Poly h) ((lc h)%:P * \prod_(f <- @factor_list O h t) Poly f).
Proof.
  case: t => // f ff g gf a b _. cbn [inv factor_list]. move=> [[Mf Mg _ _] [C [_ [If Ig]]]]. rewrite big_cat /=. apply: cong_trans C _. rewrite -mulrA. apply: cong_mul; first exact: cong_refl.
  by apply: cong_mul; exact: prod_factors.
Qed.
End T.
