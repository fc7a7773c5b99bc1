(* Termination of the Collins-Akritas loop: on a small enough dyadic interval a squarefree polynomial has at most one sign variation. *)
From Coq Require Import List Arith NArith ZArith Bool.
From mathcomp Require Import all_ssreflect all_algebra.
From mathcomp Require Import zify.
From Coq Require Import Lia.
From Verif Require Import RingSpec RingModel FactoredModel PermModel MatModel MatSpec ZRing MatInst PolyModel PolyProofs BoundProofs2 PolyProps3 FacModel2 IsoModel IsoProofs.
Close Scope rs_scope. Close Scope Q_scope.
Set Implicit Arguments.
Unset Strict Implicit.
Unset Printing Implicit Defensive.
Import Order.TTheory GRing.Theory Num.Theory.
Local Open Scope ring_scope.

(* ------------------------------------------------------------------ variations of a list whose signs change once, upwards or downwards *)
Definition up (l : seq Z) := forall i j, (i < j)%N -> (j < size l)%N -> Z.le 0 (nth Z0 l i) -> Z.lt 0 (nth Z0 l j).
Definition down (l : seq Z) := forall i j, (i < j)%N -> (j < size l)%N -> Z.le (nth Z0 l i) 0 -> Z.lt (nth Z0 l j) 0.
Lemma up_tl c l : up (c :: l) -> up l. Proof. move=> H i j Hij Hj. exact: (H i.+1 j.+1). Qed.
Lemma down_tl c l : down (c :: l) -> down l. Proof. move=> H i j Hij Hj. exact: (H i.+1 j.+1). Qed.
Lemma nz_in l z : z \in nz l -> z \in l /\ z <> Z0.
Proof. rewrite mem_filter => /andP[H1 ->]. split=> //. by case: Z.eqb_spec H1. Qed.
Lemma cv_pos l : (forall z, z \in l -> Z.lt 0 z) -> count_variations l = 0%N.
Proof.
  elim: l => [|x [|y l] IH] // H. rewrite cv_cons IH => [|z Hz]; last by apply: H; rewrite inE Hz orbT.
  have H1 := H x (mem_head _ _). have H2 : Z.lt 0 y by apply: H; rewrite !inE eqxx orbT. case: Z.ltb_spec; case: Z.ltb_spec => //; lia.
Qed.
Lemma cv_neg l : (forall z, z \in l -> Z.lt z 0) -> count_variations l = 0%N.
Proof.
  elim: l => [|x [|y l] IH] // H. rewrite cv_cons IH => [|z Hz]; last by apply: H; rewrite inE Hz orbT.
  have H1 := H x (mem_head _ _). have H2 : Z.lt y 0 by apply: H; rewrite !inE eqxx orbT. case: Z.ltb_spec; case: Z.ltb_spec => //; lia.
Qed.
Lemma up_cv2 l : up l -> (count_variations (nz l) <= 1)%N /\ (forall y t, nz l = y :: t -> Z.lt 0 y -> count_variations (nz l) = 0%N).
Proof.
  elim: l => [|c l IH] // H. have {IH} [IH1 IH2] := IH (up_tl H). case: (Z_lt_le_dec c 0) => Hc.
  - have E : nz (c :: l) = c :: nz l by rewrite /nz /=; case: Z.eqb_spec => //= C; lia.
    rewrite E. split; last by move=> y t [<- _]; lia. case E2: (nz l) => [|y t] //. rewrite cv_cons -E2. case: (Z_lt_le_dec y 0) => Hy.
    + have -> : (Z.ltb c 0) = true by lia. have -> : (Z.ltb y 0) = true by lia. exact: IH1.
    + suff -> : count_variations (nz l) = 0%N by case: (_ != _). have [_ H2] : y \in l /\ y <> Z0 by apply: nz_in; rewrite E2 mem_head. apply: (IH2 _ _ E2). lia.
  - have P z : z \in l -> Z.lt 0 z by move=> /(nthP Z0) [j Hj <-]; apply: (H 0%N j.+1).
    have P2 : forall z, z \in nz (c :: l) -> Z.lt 0 z.
      move=> z /nz_in [Hz Hz0]. move: Hz. rewrite inE => /orP[/eqP E|]; [lia|exact: P].
    by rewrite (cv_pos P2).
Qed.
Lemma up_cv l : up l -> (count_variations (nz l) <= 1)%N. Proof. by move/up_cv2 => []. Qed.
Lemma down_cv2 l : down l -> (count_variations (nz l) <= 1)%N /\ (forall y t, nz l = y :: t -> Z.lt y 0 -> count_variations (nz l) = 0%N).
Proof.
  elim: l => [|c l IH] // H. have {IH} [IH1 IH2] := IH (down_tl H). case: (Z_lt_le_dec 0 c) => Hc.
  - have E : nz (c :: l) = c :: nz l by rewrite /nz /=; case: Z.eqb_spec => //= C; lia.
    rewrite E. split; last by move=> y t [<- _]; lia. case E2: (nz l) => [|y t] //. rewrite cv_cons -E2. case: (Z_lt_le_dec 0 y) => Hy.
    + have -> : (Z.ltb c 0) = false by lia. have -> : (Z.ltb y 0) = false by lia. exact: IH1.
    + suff -> : count_variations (nz l) = 0%N by case: (_ != _). have [_ H2] : y \in l /\ y <> Z0 by apply: nz_in; rewrite E2 mem_head. apply: (IH2 _ _ E2). lia.
  - have P z : z \in l -> Z.lt z 0 by move=> /(nthP Z0) [j Hj <-]; apply: (H 0%N j.+1).
    have P2 : forall z, z \in nz (c :: l) -> Z.lt z 0.
      move=> z /nz_in [Hz Hz0]. move: Hz. rewrite inE => /orP[/eqP E|]; [lia|exact: P].
    by rewrite (cv_neg P2).
Qed.
Lemma down_cv l : down l -> (count_variations (nz l) <= 1)%N. Proof. by move/down_cv2 => []. Qed.

(* ------------------------------------------------------------------ Taylor coefficients *)
Section Taylor.
Variable F : realFieldType.
Implicit Types (p q Q : {poly F}).
Definition tay (Q : {poly F}) (a : F) (i : nat) : F := (Q \Po ('X + a%:P))`_i.
Lemma coef_scale p h i : (p \Po (h *: 'X))`_i = h ^+ i * p`_i.
Proof.
  elim/poly_ind: p i => [|p c IH] i; first by rewrite comp_poly0 !coef0 mulr0.
  rewrite comp_polyD comp_polyM comp_polyX comp_polyC -scalerAr !coefD coefZ !coefMX !coefC. case: i => [|i] /=; first by rewrite expr0 mulr0 mul1r.
  by rewrite IH exprS mulrA !addr0.
Qed.
Lemma tay_scale Q a h i : (Q \Po (h *: 'X + a%:P))`_i = h ^+ i * tay Q a i.
Proof. rewrite /tay -coef_scale -comp_polyA comp_polyD comp_polyX comp_polyC. by []. Qed.
Lemma tay0 Q a : tay Q a 0 = Q.[a].
Proof. by rewrite /tay -horner_coef0 horner_comp !hornerE. Qed.
Lemma tay1 Q a : tay Q a 1 = Q^`().[a].
Proof.
  have E : ((Q \Po ('X + a%:P))^`())`_0 = tay Q a 1 by rewrite coef_deriv mulr1n.
  by rewrite -E deriv_comp derivD derivX derivC addr0 mulr1 -horner_coef0 horner_comp !hornerE.
Qed.
Lemma bin_bound (a : F) k i : 0 <= a -> a <= 1 -> `|(('X + a%:P) ^+ k)`_i| <= 2%:R ^+ k.
Proof.
  move=> a0 a1. elim: k i => [|k IH] i; first by rewrite !expr0 coef1; case: (i == 0)%N; rewrite ?normr0 ?normr1 // ler01.
  rewrite exprS mulrDl coefD coefXM coefCM. apply: le_trans (ler_norm_add _ _) _.
  have -> : 2%:R ^+ k.+1 = 2%:R ^+ k + 2%:R ^+ k :> F by rewrite exprS mulr_natl mulr2n.
  apply: ler_add.
  - case: (i == 0)%N; last exact: IH. by rewrite normr0 exprn_ge0 ?ler0n.
  - rewrite normrM (ger0_norm a0). rewrite -[X in _ <= X]mul1r. by apply: ler_pmul => //; rewrite normr_ge0.
Qed.
Definition tbound Q : F := \sum_(k < size Q) `|Q`_k| * 2%:R ^+ k.
Lemma tay_bound Q a i : 0 <= a -> a <= 1 -> `|tay Q a i| <= tbound Q.
Proof.
  move=> a0 a1. rewrite /tay coef_comp_poly. apply: le_trans (ler_norm_sum _ _ _) _. apply: ler_sum => k _. rewrite normrM. apply: ler_pmul; rewrite ?normr_ge0 //. exact: bin_bound.
Qed.
Lemma tbound_ge0 Q : 0 <= tbound Q. Proof. apply: sumr_ge0 => k _. by rewrite mulr_ge0 ?normr_ge0 ?exprn_ge0 ?ler0n. Qed.

(* the ratio C(n-i, m) / C(n, m) *)
Definition rho (n i m : nat) : F := 'C(n - i, m)%:R / 'C(n, m)%:R.
Arguments rho : simpl never.
Lemma rho_bound n i m : (m <= n)%N -> 0 <= rho n i m <= 1.
Proof.
  move=> H. have P : 0 < 'C(n, m)%:R :> F by rewrite ltr0n bin_gt0. rewrite /rho divr_ge0 ?ler0n //= ler_pdivr_mulr // mul1r ler_nat. apply: leq_bin2l. exact: leq_subr.
Qed.
Lemma rho0 n m : (m <= n)%N -> rho n 0 m = 1.
Proof. move=> H. rewrite /rho subn0 divff // pnatr_eq0 -lt0n bin_gt0 //. Qed.
Lemma rho1 n m : (m <= n)%N -> (0 < n)%N -> rho n 1 m = (n - m)%:R / n%:R.
Proof.
  move=> H n0. have P : 'C(n, m)%:R != 0 :> F by rewrite pnatr_eq0 -lt0n bin_gt0. have N : n%:R != 0 :> F by rewrite pnatr_eq0 -lt0n.
  apply/eqP. rewrite /rho eqr_div // -!natrM subn1 [X in X%:R == _]mulnC mul_bin_down. by [].
Qed.
(* the scaled Bernstein coefficient *)
Definition bern Q (n : nat) (a h : F) (m : nat) : F := \sum_(i < n.+1) h ^+ i * tay Q a i * rho n i m.
Lemma bern_approx Q n a h m : 0 <= a -> a <= 1 -> 0 < h -> h <= 1 -> (m <= n)%N -> (0 < n)%N ->
  `|bern Q n a h m - (Q.[a] + h * Q^`().[a] * ((n - m)%:R / n%:R))| <= n%:R * tbound Q * h ^+ 2.
Proof.
  move=> a0 a1 h0 h1 mn n0. case: n n0 mn => // n _ mn. rewrite /bern !big_ord_recl /= -tay0 -tay1 rho0 // -rho1 // expr0 expr1 mul1r mulr1 addrA [X in _ + X - _]/=.
  rewrite /bump /= addrAC subrr add0r. apply: le_trans (ler_norm_sum _ _ _) _.
  have T0 : 0 <= tbound Q * h ^+ 2 by rewrite mulr_ge0 ?tbound_ge0 // exprn_ge0 // ltW.
  apply: (@le_trans _ _ (\sum_(i < n) tbound Q * h ^+ 2)); last by rewrite sumr_const card_ord -mulr_natl -mulrA ler_wpmul2r // ler_nat.
  have H k : (1 < k)%N -> `|h ^+ k * tay Q a k * rho n.+1 k m| <= tbound Q * h ^+ 2; last by apply: ler_sum => i _; exact: H.
  move=> k2. rewrite [`|_ * rho _ _ _|]normrM [`|_ * tay _ _ _|]normrM. have /andP[r0 r1] := rho_bound k mn. rewrite (ger0_norm r0) normrX (gtr0_norm h0).
  rewrite -[X in _ <= X]mulr1. apply: ler_pmul => //; first by rewrite mulr_ge0 ?normr_ge0 // exprn_ge0 // ltW.
  rewrite [X in X <= _]mulrC. apply: ler_pmul; [exact: normr_ge0|by rewrite exprn_ge0 // ltW|exact: tay_bound|].
  rewrite -(subnKC k2) exprD. rewrite -[X in _ <= X]mulr1. apply: ler_wpmul2l; first by rewrite exprn_ge0 // ltW. by rewrite exprn_ile1 // ltW.
Qed.
Lemma ac1 (V B h n : F) : 2%:R * (V * (2%:R * (B * h) * n)) = h * (4%:R * n * B * V).
Proof.
  have -> : 4%:R = 2%:R * 2%:R :> F by rewrite -natrM.
  rewrite [V * _]mulrC !mulrA; congr (_ * _). rewrite [RHS]mulrAC; congr (_ * _). by rewrite [LHS]mulrC !mulrA.
Qed.
Lemma ac2 (b c x P R : F) : b - c + (P - R) = (b - (x + R)) - (c - (x + P)).
Proof.
  have -> : P - R = (x + P) - (x + R) by rewrite opprD addrACA subrr add0r. rewrite opprB. move: (x + P) (x + R) => A B. by rewrite addrACA [RHS]addrACA [- B - c]addrC.
Qed.
Lemma tdiff n i j : (i < j)%N -> (j <= n)%N -> n%:R^-1 <= (n - i)%:R / n%:R - (n - j)%:R / n%:R :> F.
Proof.
  move=> ij jn. rewrite -mulrBl -natrB; last by rewrite leq_sub2l // ltnW.
  rewrite -[X in X <= _]mul1r. apply: ler_wpmul2r; first by rewrite invr_ge0 ler0n. rewrite ler1n subn_gt0. by rewrite ltn_sub2l // (leq_trans ij).
Qed.
Lemma ac3 (B h : F) : B * h ^+ 2 + B * h ^+ 2 = h * (2%:R * (B * h)).
Proof. by rewrite mulr_natl mulr2n mulrDr expr2 !mulrA [B * h]mulrC. Qed.
(* small intervals: the signs of the Bernstein coefficients change at most once *)
Lemma bern_mono Q u v : u * Q + v * Q^`() = 1 -> (1 < size Q)%N -> exists M, 0 < M /\ forall a h, 0 <= a -> a <= 1 -> 0 < h -> h * M < 1 ->
  let n := (size Q).-1 in
  (forall i j, (i < j)%N -> (j <= n)%N -> 0 <= bern Q n a h i -> 0 < bern Q n a h j) \/ (forall i j, (i < j)%N -> (j <= n)%N -> bern Q n a h i <= 0 -> bern Q n a h j < 0).
Proof.
  move=> UV sQ. set n := (size Q).-1. have n0 : (0 < n)%N by rewrite /n; case: (size Q) sQ => [|[|k]].
  set Y := tbound Q. have Y0 : 0 <= Y := tbound_ge0 Q. set B := n%:R * Y. have B0 : 0 <= B by rewrite mulr_ge0 // ler0n.
  set U := tbound u. set V := tbound v. have U0 : 0 <= U := tbound_ge0 u. have V0 : 0 <= V := tbound_ge0 v.
  have n0' : 0 < n%:R :> F by rewrite ltr0n.
  set M1 := 2%:R * U * (Y + B). set M2 := 4%:R * n%:R * B * V. have M10 : 0 <= M1 by rewrite !mulr_ge0 ?ler0n ?addr_ge0. have M20 : 0 <= M2 by rewrite !mulr_ge0 ?ler0n.
  exists (1 + (M1 + M2)). split; first by apply: ltr_paddr; rewrite ?ltr01 // addr_ge0.
  move=> a h a0 a1 h0 HM n'. rewrite /n' -/n {n'}.
  have Hh : h < 1. { apply: le_lt_trans HM. rewrite -[X in X <= _]mulr1. apply: ler_wpmul2l; first exact: ltW. by rewrite ler_addl addr_ge0. }
  have HM1 : h * M1 < 1. { apply: le_lt_trans HM. apply: ler_wpmul2l; first exact: ltW. by rewrite addrCA ler_addl addr_ge0 // ler01. }
  have HM2 : h * M2 < 1. { apply: le_lt_trans HM. apply: ler_wpmul2l; first exact: ltW. by rewrite addrA ler_addr addr_ge0 // ler01. }
  have EV : u.[a] * Q.[a] + v.[a] * Q^`().[a] = 1 by rewrite -!hornerM -hornerD UV hornerC.
  set x := Q.[a] in EV *. set y := Q^`().[a] in EV *.
  have Hy : `|y| <= Y by rewrite /y -tay1 tay_bound. have Hu : `|u.[a]| <= U by rewrite -tay0 tay_bound. have Hv : `|v.[a]| <= V by rewrite -tay0 tay_bound.
  have [t Ht] : exists t : nat -> F, forall m, t m = (n - m)%:R / n%:R by exists (fun m => (n - m)%:R / n%:R). have T01 m : (m <= n)%N -> 0 <= t m <= 1. { move=> Hm. rewrite Ht divr_ge0 ?ler0n //= ler_pdivr_mulr // mul1r ler_nat leq_subr //. }
  have AP m : (m <= n)%N -> `|bern Q n a h m - (x + h * y * t m)| <= B * h ^+ 2 by move=> Hm; rewrite Ht; apply: bern_approx => //; exact: ltW.
  case: (ltrP (h * (Y + B)) `|x|) => Hx.
  - (* all of the sign of x *)
    have CL m : (m <= n)%N -> `|bern Q n a h m - x| < `|x|.
      move=> Hm. apply: le_lt_trans Hx. have -> : bern Q n a h m - x = (bern Q n a h m - (x + h * y * t m)) + h * y * t m by rewrite opprD addrA subrK.
      apply: le_trans (ler_norm_add _ _) _. rewrite mulrDr addrC. apply: ler_add.
      + rewrite !normrM (gtr0_norm h0). have /andP[H1 H2] := T01 m Hm. rewrite (ger0_norm H1) -[X in _ <= X]mulr1. apply: ler_pmul => //; first by rewrite mulr_ge0 // ltW. by rewrite ler_wpmul2l // ltW.
      + apply: le_trans (AP m Hm) _. rewrite mulrC. apply: ler_wpmul2r => //. rewrite expr2 -[X in _ <= X]mulr1. apply: ler_wpmul2l; exact: ltW.
    case: (ltrgt0P x) => X0.
    + left => i j ij jn _. have := CL j jn. rewrite (gtr0_norm X0) ltr_norml => /andP[H _]. by rewrite -(ltr_add2r (- x)) add0r.
    + right => i j ij jn _. have := CL j jn. rewrite (ltr0_norm X0) ltr_norml => /andP[_ H]. by rewrite -(ltr_add2r (- x)) add0r.
    + move: Hx. rewrite X0 normr0 ltNge mulr_ge0 //; [exact: ltW|exact: addr_ge0].
  - (* monotone *)
    have Hux : `|u.[a] * x| < 2%:R^-1.
      rewrite normrM. apply: (@le_lt_trans _ _ (U * (h * (Y + B)))); first by apply: ler_pmul.
      have E : 2%:R * (U * (h * (Y + B))) = h * M1 by rewrite /M1 !mulrA; congr (_ * _); rewrite mulrC mulrA.
      by rewrite -(@ltr_pmul2l _ 2%:R) ?ltr0n // divff ?pnatr_eq0 // E.
    have Hvy : 2%:R^-1 < V * `|y|.
      apply: (@lt_le_trans _ _ `|v.[a] * y|); last by rewrite normrM ler_wpmul2r.
      have E : v.[a] * y = 1 - u.[a] * x by rewrite -EV addrAC subrr add0r.
      rewrite E. apply: lt_le_trans (ler_sub_dist _ _). by rewrite normr1 ltr_subr_addr [X in _ < X](splitr 1) div1r ltr_add2l.
    have Vp : 0 < V. { rewrite lt_neqAle V0 andbT eq_sym. apply: contraTneq Hvy => ->. by rewrite mul0r -leNgt invr_ge0 ler0n. }
    (* the differences have the sign of - y *)
    have K : 2%:R * (B * h) < `|y| / n%:R.
      rewrite ltr_pdivl_mulr // -(ltr_pmul2l Vp). apply: lt_trans Hvy. rewrite -(@ltr_pmul2l _ 2%:R) ?ltr0n // divff ?pnatr_eq0 //.
      by rewrite ac1.
    have T1 i j : (i < j)%N -> (j <= n)%N -> n%:R^-1 <= t i - t j.
      move=> ij jn. rewrite !Ht. exact: tdiff.
    have DF i j : (i < j)%N -> (j <= n)%N -> `|bern Q n a h j - bern Q n a h i + h * y * (t i - t j)| < h * `|y| * (t i - t j).
      move=> ij jn. have im : (i <= n)%N := leq_trans (ltnW ij) jn. 
      have -> : bern Q n a h j - bern Q n a h i + h * y * (t i - t j) = (bern Q n a h j - (x + h * y * t j)) - (bern Q n a h i - (x + h * y * t i)).
        by rewrite mulrBr; exact: ac2.
      apply: le_lt_trans (ler_norm_sub _ _) _. apply: (@le_lt_trans _ _ (B * h ^+ 2 + B * h ^+ 2)); first by apply: ler_add; exact: AP.
      have T1' : n%:R^-1 <= t i - t j := T1 i j ij jn.
      apply: (@lt_le_trans _ _ (h * `|y| * n%:R^-1)); last by apply: ler_wpmul2l => //; rewrite mulr_ge0 // ltW.
      by rewrite ac3 -mulrA ltr_pmul2l.
    case: (ltrgt0P y) => Yy.
    + right => i j ij jn Hi. have := DF i j ij jn. rewrite (gtr0_norm Yy) ltr_norml => /andP[_ H]. apply: lt_le_trans Hi. rewrite -subr_lt0. by rewrite -(ltr_add2r (h * y * (t i - t j))) add0r.
    + left => i j ij jn Hi. have := DF i j ij jn. rewrite (ltr0_norm Yy) ltr_norml => /andP[H _]. apply: le_lt_trans Hi _. rewrite -subr_gt0. by rewrite -(ltr_add2r (h * y * (t i - t j))) add0r; move: H; rewrite mulrN !mulNr opprK.
    + move: Hvy. by rewrite Yy normr0 mulr0 ltNge invr_ge0 ler0n.
Qed.
End Taylor.
