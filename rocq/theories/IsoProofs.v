(* Descartes' rule of signs for zero and one sign variation over a real closed field, for integer coefficients. *)
From Coq Require Import List Arith NArith ZArith Bool.
From mathcomp Require Import all_ssreflect all_algebra.
From mathcomp Require Import zify.
From Coq Require Import Lia.
From Verif Require Import RingSpec RingModel FactoredModel PermModel MatModel MatSpec ZRing MatInst PolyModel PolyProofs BoundProofs2 PolyProps3 FacModel2 IsoModel.
Close Scope rs_scope. Close Scope Q_scope.
Set Implicit Arguments.
Unset Strict Implicit.
Unset Printing Implicit Defensive.
Import Order.TTheory GRing.Theory Num.Theory.
Local Open Scope ring_scope.

Arguments count_variations : simpl never.
Section Far.
Variable R : realFieldType.
Lemma far_lead (p : {poly R}) : 0 < lead_coef p -> exists n, 0 < n /\ forall x, n <= x -> lead_coef p <= p.[x].
Proof.
  elim/poly_ind: p => [|q c IH]; first by rewrite lead_coef0 ltxx.
  case q0: (q == 0).
  - rewrite (eqP q0) mul0r add0r lead_coefC => c0. exists 1. split=> // x _. by rewrite hornerC.
  - have qn : q != 0 by rewrite q0. have E : lead_coef (q * 'X + c%:P) = lead_coef q.
      rewrite lead_coefDl ?lead_coefMX //. rewrite size_mulX // size_polyC. apply: (leq_ltn_trans (leq_b1 _)). by rewrite ltnS lt0n size_poly_eq0.
    rewrite E => H. have [n [n0 Hn]] := IH H. set l := lead_coef q in H Hn E *.
    exists (n + (1 + `|c| / l)). have P : 0 <= `|c| / l by rewrite divr_ge0 // ltW. have P1 : 0 < 1 + `|c| / l by rewrite ltr_spaddl.
    split; first by rewrite addr_gt0. move=> x Hx. rewrite !hornerE.
    have x1 : n <= x by apply: le_trans Hx; rewrite ler_addl ltW. have x2 : 1 + `|c| / l <= x by apply: le_trans Hx; rewrite ler_addr ltW.
    have x0 : 0 <= x by apply: le_trans (ltW P1) x2.
    have A : l * x <= q.[x] * x by apply: ler_wpmul2r => //; exact: Hn.
    have B : l * (1 + `|c| / l) <= l * x by rewrite ler_pmul2l.
    have C : l * (1 + `|c| / l) = l + `|c| by rewrite mulrDr mulr1 mulrCA mulfV ?mulr1 // gt_eqF.
    apply: (@le_trans _ _ (l * x + c)); last by rewrite ler_add2r.
    apply: (@le_trans _ _ (l * (1 + `|c| / l) + c)); last by rewrite ler_add2r.
    by rewrite C -addrA ler_addl -ler_subl_addr sub0r -normrN ler_norm.
Qed.
End Far.

Section Desc.
Variable R : rcfType.
Notation zR := (zin R).
Definition sg (b : bool) : R := if b then -1 else 1.
Implicit Types (l a b : seq Z) (s : bool).
Lemma zin_lt0 z : (zR z < 0) = Z.ltb z Z0.
Proof.
  case: z => [|p|p]; first by rewrite ltxx.
  - rewrite -[Zpos p]/(Zpos p) /zin. by rewrite ltNge ler0n.
  - rewrite /zin oppr_lt0 ltr0n. have := Pos2Nat.is_pos p. by case: (Pos.to_nat p) => [/Nat.lt_irrefl|].
Qed.
Lemma zin_eq0 z : (zR z == 0) = Z.eqb z Z0.
Proof. apply/eqP/Z.eqb_spec => [|->]; [exact: zin_inj|by []]. Qed.
Lemma zin_gt0 z : (0 < zR z) = Z.ltb Z0 z.
Proof. rewrite lt_neqAle eq_sym zin_eq0 leNgt zin_lt0. case: Z.eqb_spec; case: Z.ltb_spec; case: Z.ltb_spec => //=; lia. Qed.
(* z has sign s (true = negative), weakly or strictly *)
Definition wsg s (z : Z) : bool := 0 <= sg s * zR z.
Definition ssg s (z : Z) : bool := 0 < sg s * zR z.
Lemma ssgE s z : ssg s z = ~~ Z.eqb z Z0 && (Z.ltb z Z0 == s).
Proof.
  rewrite /ssg /sg -zin_eq0 -zin_lt0. case: s; rewrite ?mulN1r ?mul1r ?oppr_gt0.
  - case: (ltgtP (zR z) 0) => //.
  - case: (ltgtP (zR z) 0) => //.
Qed.
Lemma wsgE s z : wsg s z = (z == Z0) || ssg s z.
Proof.
  rewrite /wsg /ssg le_eqVlt eq_sym mulf_eq0 zin_eq0. have -> : (sg s == 0) = false by rewrite /sg; case: s; rewrite ?oppr_eq0 oner_eq0.
  by rewrite orFb; congr (_ || _); apply/idP/idP => [/Z.eqb_spec ->|/eqP ->].
Qed.
Lemma wsg0 s : wsg s Z0. Proof. by rewrite wsgE eqxx. Qed.
Lemma ssg_w s z : ssg s z -> wsg s z. Proof. by rewrite wsgE => ->; rewrite orbT. Qed.

Definition nz l := [seq c <- l | ~~ Z.eqb c Z0].
Lemma filterE (A : Type) (f : A -> bool) (l : seq A) : List.filter f l = filter f l.
Proof. by elim: l => //= x l ->. Qed.
Lemma sv_none l : sign_variations l = None <-> nz l = [::].
Proof. rewrite /sign_variations /nonzero_coeffs filterE. rewrite -[[seq x <- l | _]]/(nz l). by case: (nz l). Qed.
Lemma sv_some l v : sign_variations l = Some v -> exists x t, nz l = x :: t /\ count_variations (x :: t) = v.
Proof. rewrite /sign_variations /nonzero_coeffs filterE. rewrite -[[seq x <- l | _]]/(nz l). case: (nz l) => // x t [E]. by exists x, t. Qed.
Lemma cv_cons x y t : count_variations (x :: y :: t) = ((Z.ltb x Z0 != Z.ltb y Z0) + count_variations (y :: t))%N.
Proof. change (count_variations (x :: y :: t)) with ((if negb (Bool.eqb (Z.ltb x Z0) (Z.ltb y Z0)) then 1 else 0)%nat + count_variations (y :: t))%nat. by case: (Z.ltb x _) (Z.ltb y _) => [] []. Qed.
Lemma nz_all l x t : nz l = x :: t -> ~~ Z.eqb x Z0.
Proof. move=> E. have : x \in nz l by rewrite E mem_head. by rewrite mem_filter => /andP[]. Qed.
(* no variation: all the coefficients have the sign of the first nonzero one *)
Lemma sv0 l x t : nz l = x :: t -> count_variations (x :: t) = 0%N -> all (wsg (Z.ltb x Z0)) l /\ has (ssg (Z.ltb x Z0)) l.
Proof.
  elim: l x t => [|c l IH] x t //=. case: Z.eqb_spec => /= C.
  - move=> E H. have [H1 H2] := IH _ _ E H. by rewrite C wsg0 H1 H2 orbT.
  - case=> <-; rewrite -/(nz l) => <- H. have S : ssg (Z.ltb c Z0) c by rewrite ssgE eqxx andbT; case: Z.eqb_spec. rewrite (ssg_w S) S. split=> //=.
    case E2: (nz l) => [|y u].
    + apply/allP => z Hz. rewrite wsgE. case Z0': (z == Z0) => //. have : z \in nz l by rewrite mem_filter Hz andbT; case: Z.eqb_spec Z0' => // ->; rewrite eqxx. by rewrite E2.
    + move: H. rewrite E2 cv_cons. case D: (Z.ltb c Z0 == Z.ltb y Z0) => //= H. rewrite (eqP D). by have [] := IH _ _ E2 H.
Qed.
(* one variation: a block of the sign of the first nonzero coefficient, then a block of the other sign *)
Lemma sv1 l x t : nz l = x :: t -> count_variations (x :: t) = 1%N -> let s := Z.ltb x Z0 in
  exists a b, [/\ l = a ++ b, all (wsg s) a, has (ssg s) a, all (wsg (~~ s)) b & has (ssg (~~ s)) b].
Proof.
  elim: l x t => [|c l IH] x t //=. case: Z.eqb_spec => /= C.
  - move=> E H. have [a [b [-> H1 H2 H3 H4]]] := IH _ _ E H. exists (c :: a), b. by rewrite /= C wsg0 H1 H2 orbT.
  - case=> <-; rewrite -/(nz l) => <- H. have S : ssg (Z.ltb c Z0) c by rewrite ssgE eqxx andbT; case: Z.eqb_spec.
    case E2: (nz l) => [|y u]; first by move: H; rewrite E2.
    move: H. rewrite E2 cv_cons. case D: (Z.ltb c Z0 == Z.ltb y Z0) => /=.
    + rewrite add0n => H. have [a [b [-> H1 H2 H3 H4]]] := IH _ _ E2 H. exists (c :: a), b. rewrite /= (ssg_w S) S. by rewrite (eqP D) H1 H3 H4.
    + move=> [] H. have [H1 H2] := sv0 E2 H. have N : Z.ltb y Z0 = ~~ Z.ltb c Z0 by move: D; case: (Z.ltb c _) (Z.ltb y _) => [] []. rewrite N in H1 H2.
      exists [:: c], l. by rewrite /= (ssg_w S) S H1 H2.
Qed.

(* the polynomial over R *)
Definition PR l : {poly R} := map_poly zR (Poly l).
Lemma PR_map l : PR l = Poly [seq zR c | c <- l].
Proof. apply/polyP => i. rewrite coef_map !coef_Poly. case: (ltnP i (size l)) => H; first by rewrite (nth_map Z0). by rewrite !nth_default ?size_map ?rmorph0. Qed.
Lemma PR_cons c l : PR (c :: l) = PR l * 'X + (zR c)%:P.
Proof. by rewrite !PR_map /= cons_poly_def. Qed.
Lemma PR_cat a b : PR (a ++ b) = PR a + PR b * 'X^(size a).
Proof.
  elim: a => [|c a IH] /=; first by rewrite /PR rmorph0 add0r expr0 mulr1.
  rewrite !PR_cons IH exprSr mulrDl mulrA -!addrA. by congr (_ + _); rewrite addrC.
Qed.
Lemma sgN s : sg (~~ s) = - sg s. Proof. by rewrite /sg; case: s; rewrite ?opprK. Qed.
Lemma sg_neq0 s : sg s != 0. Proof. by rewrite /sg; case: s; rewrite ?oppr_eq0 oner_eq0. Qed.
Lemma sgK s : sg s * sg s = 1. Proof. by rewrite /sg; case: s; rewrite ?mulrNN mulr1. Qed.
Lemma pos_eval s l y : 0 < y -> all (wsg s) l -> 0 <= sg s * (PR l).[y].
Proof.
  move=> y0. elim: l => [|c l IH] /=; first by rewrite /PR rmorph0 horner0 mulr0. case/andP=> Hc Hl. rewrite PR_cons !hornerE mulrDr mulrA. apply: addr_ge0 => //. apply: mulr_ge0; [exact: IH|exact: ltW].
Qed.
Lemma pos_eval_s s l y : 0 < y -> all (wsg s) l -> has (ssg s) l -> 0 < sg s * (PR l).[y].
Proof.
  move=> y0. elim: l => [|c l IH] //= /andP[Hc Hl]. rewrite PR_cons !hornerE mulrDr mulrA. case/orP=> H.
  - rewrite addrC. apply: ltr_paddr => //. apply: mulr_ge0; [exact: pos_eval|exact: ltW].
  - apply: ltr_paddr => //. apply: mulr_gt0 => //. exact: IH.
Qed.
(* terms of degree < k: y^-k a(y) decreases *)
Lemma rearr (s A y X x : R) : s * (A * y) * (X * x) = s * A * X * (y * x).
Proof. by rewrite [s * (A * y)]mulrA mulrACA. Qed.
Lemma low_step s (A B x y : R) k : 0 < x -> 0 < y -> sg s * A * x ^+ k <= sg s * B * y ^+ k -> sg s * (A * y) * x ^+ k.+1 <= sg s * (B * x) * y ^+ k.+1.
Proof. move=> x0 y0 H. rewrite !exprSr !rearr [y * x]mulrC. apply: ler_wpmul2r => //. by apply: ltW; rewrite mulr_gt0. Qed.
Lemma low_step_s s (A B x y : R) k : 0 < x -> 0 < y -> sg s * A * x ^+ k < sg s * B * y ^+ k -> sg s * (A * y) * x ^+ k.+1 < sg s * (B * x) * y ^+ k.+1.
Proof. move=> x0 y0 H. rewrite !exprSr !rearr [y * x]mulrC. rewrite ltr_pmul2r; [exact: H|exact: mulr_gt0]. Qed.
Lemma low_mono s a k x y : 0 < x -> x < y -> (size a <= k)%N -> all (wsg s) a -> sg s * (PR a).[y] * x ^+ k <= sg s * (PR a).[x] * y ^+ k.
Proof.
  move=> x0 xy. have y0 := lt_trans x0 xy. elim: a k => [|c a IH] k /=; first by rewrite /PR rmorph0 !horner0 !mulr0 !mul0r.
  case: k => // k Hk /andP[Hc Ha]. rewrite PR_cons !hornerE !mulrDr !mulrDl. apply: ler_add.
  - apply: low_step => //. exact: IH.
  - rewrite ler_wpmul2l // ler_expn2r // ?nnegrE ltW //.
Qed.
Lemma low_mono_s s a k x y : 0 < x -> x < y -> (size a <= k)%N -> all (wsg s) a -> has (ssg s) a -> sg s * (PR a).[y] * x ^+ k < sg s * (PR a).[x] * y ^+ k.
Proof.
  move=> x0 xy. have y0 := lt_trans x0 xy. elim: a k => [|c a IH] k //=.
  case: k => // k Hk /andP[Hc Ha]. rewrite PR_cons !hornerE !mulrDr !mulrDl. case/orP=> H.
  - apply: ler_lt_add; first by apply: low_step => //; exact: low_mono.
    rewrite ltr_pmul2l // ltr_expn2r // ?nnegrE ltW //.
  - apply: ltr_le_add; first by apply: low_step_s => //; exact: IH.
    rewrite ler_wpmul2l // ler_expn2r // ?nnegrE ltW //.
Qed.
Lemma high_mono s b x y : 0 < x -> x < y -> all (wsg s) b -> sg s * (PR b).[x] <= sg s * (PR b).[y].
Proof.
  move=> x0 xy. have y0 := lt_trans x0 xy. elim: b => [|c b IH] /=; first by rewrite /PR rmorph0 !horner0.
  case/andP=> Hc Hb. rewrite PR_cons !hornerE !mulrDr !mulrA ler_add2r. apply: ler_pmul => //; [exact: pos_eval|exact: ltW|exact: IH|exact: ltW].
Qed.
(* at most one positive root *)
Lemma one_uniq s a b x y : all (wsg s) a -> has (ssg s) a -> all (wsg (~~ s)) b -> 0 < x -> x < y -> root (PR (a ++ b)) x -> root (PR (a ++ b)) y -> False.
Proof.
  move=> Ha Ha' Hb x0 xy. have y0 := lt_trans x0 xy. rewrite /root PR_cat !(hornerE, hornerXn) => /eqP Ex /eqP Ey.
  have L := low_mono_s x0 xy (leqnn _) Ha Ha'. have H := high_mono x0 xy Hb. rewrite sgN !mulNr ler_opp2 in H.
  move: L. have -> : (PR a).[y] = - ((PR b).[y] * y ^+ size a) by apply/eqP; rewrite -addr_eq0 Ey.
  have -> : (PR a).[x] = - ((PR b).[x] * x ^+ size a) by apply/eqP; rewrite -addr_eq0 Ex.
  rewrite !mulrN !mulNr ltr_opp2 !mulrA [sg s * (PR b).[x] * _ * _]mulrAC ltr_pmul2r ?exprn_gt0 // ltr_pmul2r ?exprn_gt0 // => L. by have := lt_le_trans L H; rewrite ltxx.
Qed.
Lemma PR_lead s b : all (wsg s) b -> has (ssg s) b -> 0 < sg s * lead_coef (PR b).
Proof.
  elim: b => [|c b IH] //= /andP[Hc Hb]. case Z: (has (ssg s) b) => H.
  - rewrite PR_cons. have {}IH := IH Hb Z. have B0 : PR b != 0 by apply: contraTneq IH => ->; rewrite lead_coef0 mulr0 ltxx.
    rewrite lead_coefDl ?lead_coefMX //. rewrite size_mulX // size_polyC. apply: (leq_ltn_trans (leq_b1 _)). by rewrite ltnS lt0n size_poly_eq0.
  - rewrite orbF in H. have -> : PR (c :: b) = (zR c)%:P; last by rewrite lead_coefC.
    rewrite PR_cons. have -> : PR b = 0; last by rewrite mul0r add0r.
    rewrite PR_map.
    have : forall z, z \in b -> z = Z0. { move=> z Hz. have := allP Hb _ Hz. rewrite wsgE => /orP[/eqP //|S]. move/negbT/hasPn: Z => /(_ _ Hz). by rewrite S. }
    elim: (b) => [|d b' IHb] Hz //.
    rewrite /= cons_poly_def IHb => [|z Hz']; last by apply: Hz; rewrite inE Hz' orbT. rewrite (Hz d) ?mem_head // mul0r add0r. by rewrite [zR Z0]/(0).
Qed.
(* at least one positive root *)
Lemma one_ex s a b : all (wsg s) a -> has (ssg s) a -> all (wsg (~~ s)) b -> has (ssg (~~ s)) b -> exists x, 0 < x /\ root (PR (a ++ b)) x.
Proof.
  move=> Ha Ha' Hb Hb'. elim: a Ha Ha' => [|c a IH] //= /andP[Hc Ha] H. case S: (ssg s c).
  - set T := PR _. have T0 : T.[0] = zR c by rewrite /T PR_cons !hornerE.
    have L : 0 < sg (~~ s) * lead_coef T.
      have LB := PR_lead Hb Hb'. have B0 : PR b != 0 by apply: contraTneq LB => ->; rewrite lead_coef0 mulr0 ltxx.
      rewrite /T -cat_cons PR_cat lead_coefDr; first by rewrite lead_coefM lead_coefXn mulr1.
      rewrite size_mul ?B0 ?monic_neq0 ?monicXn // size_polyXn addnS /= addnC PR_map. apply: (leq_ltn_trans (size_Poly _)). rewrite size_map -[X in (X < _)%N]addn0 ltn_add2l lt0n size_poly_eq0 // -PR_map.
    have [n [n0 Hn]] : exists n, 0 < n /\ forall x, n <= x -> lead_coef (sg (~~ s) *: T) <= (sg (~~ s) *: T).[x].
      by apply: far_lead; rewrite lead_coefZ.
    have I : 0 \in `[(sg (~~ s) *: T).[0], (sg (~~ s) *: T).[n]].
      rewrite in_itv /=; apply/andP; split; first by rewrite hornerZ T0 sgN mulNr oppr_le0; exact: ltW.
      by apply: ltW; apply: lt_le_trans (Hn _ (lexx n)); rewrite lead_coefZ.
    have [x Hx Rx] := poly_ivt (ltW n0) I. exists x. rewrite rootZ ?sg_neq0 // in Rx. split=> //.
    move: Hx. move=> /andP[x0 _]. rewrite lt_neqAle x0 andbT eq_sym. apply: contraTneq S => E. move: Rx. rewrite E /root T0 => /eqP Z. by rewrite /ssg Z mulr0 ltxx.
  - move: H. rewrite S /= => H. have c0 : c = Z0 by move: Hc; rewrite wsgE S orbF => /eqP.
    have [x [x0 Hx]] := IH Ha H. exists x. split=> //. by rewrite PR_cons c0 rootE !hornerE (eqP Hx) mul0r.
Qed.

(* Descartes: v = 0 no positive root, v = 1 exactly one *)
Lemma descartes0 l x : sign_variations l = Some 0%N -> 0 < x -> ~~ root (PR l) x.
Proof. case/sv_some=> y [t [E /(sv0 E) [H1 H2]]] x0. have P := pos_eval_s x0 H1 H2. apply/negP => /eqP Z. by rewrite Z mulr0 ltxx in P. Qed.
Lemma descartes1 l : sign_variations l = Some 1%N -> exists x, [/\ 0 < x, root (PR l) x & forall y, 0 < y -> root (PR l) y -> y = x].
Proof.
  case/sv_some=> y [t [E /(sv1 E) [a [b [-> H1 H2 H3 H4]]]]]. have [x [x0 Hx]] := one_ex H1 H2 H3 H4. exists x. split=> // z z0 Hz.
  case: (ltgtP z x) => // L; exfalso; [exact: (one_uniq H1 H2 H3 z0 L)|exact: (one_uniq H1 H2 H3 x0 L)].
Qed.
End Desc.
