(* Cauchy's bound for roots and Mignotte's bound for coefficients of factors, over any numeric closed field. *)
From mathcomp Require Import all_ssreflect all_algebra.
Set Implicit Arguments.
Unset Strict Implicit.
Unset Printing Implicit Defensive.
Import Order.TTheory GRing.Theory Num.Theory.
Local Open Scope ring_scope.

Section Cauchy.
Variable F : numDomainType.
Lemma cauchy (P : {poly F}) d (M z : F) : size P = d.+1 -> (0 < d)%N -> 0 <= M -> (forall i, (i < d)%N -> `|P`_i| <= M * `|P`_d|) -> P.[z] = 0 -> 1 + M <= `|z| -> False.
Proof.
  move=> Hs Hd HM HP Hz Hle. have Hc0 : P`_d != 0 by rewrite -[d]/(d.+1.-1) -Hs -lead_coefE lead_coef_eq0 -size_poly_eq0 Hs.
  have Hcp : 0 < `|P`_d| by rewrite normr_gt0. set t := `|z|. have Ht1 : 1 <= t by apply: le_trans Hle; rewrite ler_addl.
  have E : P`_d * z ^+ d = - \sum_(i < d) P`_i * z ^+ i.
  { move: Hz. rewrite horner_coef Hs big_ord_recr /= => /eqP. by rewrite addrC addr_eq0 => /eqP. }
  have Hn : t ^+ d <= M * \sum_(i < d) t ^+ i.
  { rewrite -(ler_pmul2l Hcp) -normrX -normrM E normrN. apply: le_trans (ler_norm_sum _ _ _) _. rewrite mulrA [_ * M]mulrC mulr_sumr. apply: ler_sum => i _. rewrite normrM normrX.
    apply: ler_wpmul2r; first exact: exprn_ge0. exact: HP. }
  have Hg : (t - 1) * (M * \sum_(i < d) t ^+ i) = M * (t ^+ d - 1) by rewrite mulrCA -subrX1.
  have Ht0 : 0 <= t - 1 by rewrite subr_ge0.
  have H1 : (t - 1) * t ^+ d <= (t - 1) * (t ^+ d - 1).
  { apply: le_trans (ler_wpmul2l Ht0 Hn) _. rewrite Hg. apply: ler_wpmul2r; first by rewrite subr_ge0 exprn_ege1. by rewrite ler_subr_addl. }
  have Ht : t = 1. { apply: le_anti. rewrite Ht1 andbT. move: H1. by rewrite mulrBr mulr1 ler_subr_addr ger_addl subr_le0. }
  have M0 : M = 0. { apply: le_anti. rewrite HM andbT. move: Hle. by rewrite -/t Ht ger_addl. }
  move: Hn. by rewrite Ht M0 mul0r expr1n ler10.
Qed.
End Cauchy.

Section Mignotte.
Variable C : numClosedFieldType.
Implicit Types (P Q : {poly C}) (rs : seq C).
(* the squared 2-norm *)
Definition N2 P : C := \sum_(i < size P) `|P`_i| ^+ 2.
Lemma N2E P n : (size P <= n)%N -> N2 P = \sum_(i < n) `|P`_i| ^+ 2.
Proof.
  move=> H. rewrite /N2 (big_ord_widen n (fun i => `|P`_i| ^+ 2) H) [RHS](bigID (fun i : 'I_n => (i < size P)%N)) /= [X in _ = _ + X]big1 ?addr0 // => i.
  by rewrite -leqNgt => Hi; rewrite nth_default // normr0 expr0n.
Qed.
Lemma N2_lead P : `|lead_coef P| ^+ 2 <= N2 P.
Proof.
  rewrite lead_coefE /N2. case E: (size P) => [|n] /=; first by rewrite nth_default ?E // normr0 expr0n big_ord0.
  by rewrite big_ord_recr /= ler_addr; apply: sumr_ge0 => i _; rewrite exprn_ge0.
Qed.
Definition flip (a : C) : {poly C} := a^* *: 'X - 1.
Lemma N2_flip a P : N2 (P * ('X - a%:P)) = N2 (P * flip a).
Proof.
  set n := size P. have S1 : (size (P * ('X - a%:P))%R <= n.+1)%N by apply: leq_trans (size_mul_leq _ _) _; rewrite size_XsubC addn2.
  have S2 : (size (P * flip a)%R <= n.+1)%N.
  { apply: leq_trans (size_mul_leq _ _) _. have : (size (flip a) <= 2)%N. { apply: leq_trans (size_add _ _) _. rewrite geq_max size_opp size_poly1 (leq_trans (size_scale_leq _ _)) // size_polyX //. } rewrite -/n -subn1 leq_subLR add1n => /(leq_add (leqnn n)). by rewrite addn2. }
  rewrite (N2E S1) (N2E S2). pose p (i : nat) : C := P`_i. pose q (i : nat) : C := (P * 'X)`_i.
  have E1 i : (P * ('X - a%:P))`_i = q i - a * p i by rewrite mulrBr coefB coefMC /p /q [a * _]mulrC.
  have E2 i : (P * flip a)`_i = a^* * q i - p i by rewrite /flip mulrBr mulr1 -scalerAr coefB coefZ.
  have K (x y : C) : `|x - y| ^+ 2 = `|x| ^+ 2 + `|y| ^+ 2 - (x * y^* + y * x^*).
  { rewrite !normCK rmorphB mulrBl !mulrBr opprB opprD. rewrite !addrA. rewrite [x * x^* - _ + _]addrAC. congr (_ - _). }
  have L i : `|q i - a * p i| ^+ 2 - `|a^* * q i - p i| ^+ 2 = (1 - `|a| ^+ 2) * (`|q i| ^+ 2 - `|p i| ^+ 2).
  { rewrite !K !rmorphM conjCK !normrM norm_conjC !exprMn. set X := `|q i| ^+ 2. set Y := `|p i| ^+ 2. set A := `|a| ^+ 2.
    have -> : q i * (a^* * (p i)^*) + a * p i * (q i)^* = a^* * q i * (p i)^* + p i * (a * (q i)^*) by rewrite mulrCA mulrA; congr (_ + _); rewrite -mulrA mulrCA.
    rewrite opprB addrA subrK mulrBl mul1r mulrBr opprB opprD [- _ - Y]addrC addrACA. by []. }
  apply/eqP. rewrite -subr_eq0 -sumrB. under eq_bigr do rewrite E1 E2 L. rewrite -mulr_sumr sumrB.
  rewrite big_ord_recl [X in _ * (_ - X)]big_ord_recr /= /q coefMX /= normr0 expr0n add0r.
  under eq_bigr do rewrite coefMX /=. rewrite [p n]nth_default // normr0 expr0n addr0. by rewrite /p subrr mulr0.
Qed.
Definition mahler rs : C := \prod_(a <- rs) Num.max 1 `|a|.
Lemma max1E (a : C) : Num.max 1 `|a| = if 1 < `|a| then `|a| else 1.
Proof. by rewrite /Num.max. Qed.
Lemma max1_ge1 (a : C) : 1 <= Num.max 1 `|a|.
Proof. rewrite max1E. case: ifP => [/ltW|_] //. Qed.
Lemma max1_ge (a : C) : `|a| <= Num.max 1 `|a|.
Proof. rewrite max1E. case: ifP => // H. by rewrite real_leNgt ?real1 ?normr_real // H. Qed.
Lemma mahler_ge1 rs : 1 <= mahler rs.
Proof. rewrite /mahler. elim: rs => [|a rs IH]; rewrite ?big_nil // big_cons. rewrite -[X in X <= _]mulr1. apply: ler_pmul => //. exact: max1_ge1. Qed.
Definition fl (a : C) : {poly C} := if 1 < `|a| then flip a else 'X - a%:P.
Lemma N2_fl Q rs : N2 (Q * \prod_(a <- rs) ('X - a%:P)) = N2 (Q * \prod_(a <- rs) fl a).
Proof.
  elim: rs Q => [|a rs IH] Q; first by rewrite !big_nil. rewrite !big_cons. have -> : Q * (('X - a%:P) * \prod_(b <- rs) ('X - b%:P)) = Q * \prod_(b <- rs) ('X - b%:P) * ('X - a%:P) by rewrite [('X - _) * _]mulrC mulrA.
  rewrite [Q * (fl a * _)]mulrA -IH -[Q * fl a * _]mulrA [fl a * _]mulrC mulrA.
  rewrite /fl. case: ifP => // _. exact: N2_flip.
Qed.
Lemma lead_fl a : `|lead_coef (fl a)| = Num.max 1 `|a|.
Proof.
  rewrite max1E /fl. case: ifP => H; last by rewrite lead_coefXsubC normr1. rewrite /flip lead_coefDl; first by rewrite lead_coefZ lead_coefX mulr1 norm_conjC.
  have Ha : a^* != 0 by rewrite conjC_eq0 -normr_gt0; apply: lt_trans H; exact: ltr01. by rewrite size_opp size_poly1 size_scale // size_polyX.
Qed.
(* Landau: the Mahler measure is at most the 2-norm *)
Lemma landau (c : C) rs : (`|c| * mahler rs) ^+ 2 <= N2 (c *: \prod_(a <- rs) ('X - a%:P)).
Proof.
  have -> : c *: \prod_(a <- rs) ('X - a%:P) = c%:P * \prod_(a <- rs) ('X - a%:P) by rewrite mul_polyC. rewrite N2_fl. apply: le_trans (N2_lead _). have -> : lead_coef (c%:P * \prod_(a <- rs) fl a) = c * \prod_(a <- rs) lead_coef (fl a) by rewrite lead_coefM lead_coefC; congr (_ * _); elim: rs => [|a rs IH]; rewrite ?big_nil ?lead_coef1 // !big_cons lead_coefM IH. rewrite normrM normr_prod.
  have -> // : mahler rs = \prod_(a <- rs) `|lead_coef (fl a)|. apply: eq_bigr => a _. by rewrite lead_fl.
Qed.
Lemma N2_l1 P : N2 P <= (\sum_(i < size P) `|P`_i|) ^+ 2.
Proof.
  rewrite /N2. elim: (size P) => [|n IH]; first by rewrite !big_ord0 expr0n. rewrite !big_ord_recr /= sqrrD. apply: ler_add => //. apply: le_trans IH _. rewrite ler_addl mulrn_wge0 // mulr_ge0 // sumr_ge0 //.
Qed.
Lemma coef_mahler rs j : `|(\prod_(a <- rs) ('X - a%:P))`_j| <= ('C(size rs, j))%:R * mahler rs.
Proof.
  elim: rs j => [|a rs IH] j. { rewrite /mahler !big_nil coef1 mulr1 /= bin0n. by case: j => [|j]; rewrite ?normr1 ?normr0. }
  rewrite /mahler !big_cons -/(mahler rs) mulrBl coefB coefXM coefCM /=. set P := \prod_(b <- rs) _ in IH *. set M := mahler rs in IH *.
  have HM : 0 <= M by apply: le_trans (mahler_ge1 rs). have Hm := max1_ge1 a. set m := Num.max 1 `|a| in Hm *. have Hma : `|a| <= m := max1_ge a. have Hm0 : 0 <= m by apply: le_trans Hm.
  case: j => [|j] /=.
  - rewrite sub0r normrN normrM bin0 mul1r. apply: ler_pmul => //. apply: le_trans (IH 0%N) _. by rewrite bin0 mul1r.
  - apply: le_trans (ler_norm_sub _ _) _. rewrite binS natrD mulrDl addrC. apply: ler_add.
    + rewrite normrM [X in _ <= X]mulrCA. apply: ler_pmul => //. 
    + rewrite mulrCA. apply: le_trans (IH j) _. by rewrite ler_pemull // mulr_ge0 // ler0n //.
Qed.
Lemma bin_mono m n j : (m <= n)%N -> ('C(m, j) <= 'C(n, j))%N.
Proof. move=> H. exact: leq_bin2l. Qed.
(* Mignotte *)
Lemma mignotte (G H : {poly C}) j : H != 0 -> G != 0 -> 1 <= `|lead_coef H| -> `|G`_j| <= ('C((size G).-1, j))%:R * \sum_(i < size (G * H)%R) `|(G * H)`_i|.
Proof.
  move=> H0 G0 Hl. have [rs Eg] := closed_field_poly_normal G. have [ss Eh] := closed_field_poly_normal H.
  have Sg : (size G).-1 = size rs. { rewrite Eg size_scale ?lead_coef_eq0 // size_prod_XsubC //. }
  have EP : G * H = (lead_coef G * lead_coef H) *: \prod_(a <- rs ++ ss) ('X - a%:P) by rewrite {1}Eg {1}Eh big_cat /= -scalerAl -scalerAr scalerA.
  have Hs : 0 <= \sum_(i < size (G * H)%R) `|(G * H)`_i| by apply: sumr_ge0.
  have HL : `|lead_coef G| * mahler rs <= \sum_(i < size (G * H)%R) `|(G * H)`_i|.
  { apply: (@le_trans _ _ (`|lead_coef G * lead_coef H| * mahler (rs ++ ss))).
    - rewrite normrM /mahler big_cat -/(mahler rs) -/(mahler ss) /= -mulrA. apply: ler_wpmul2l => //. have M1 := mahler_ge1 rs. have M2 := mahler_ge1 ss.
      rewrite mulrCA. rewrite ler_pemulr //; first exact: le_trans M1. by rewrite -[X in X <= _]mulr1; apply: ler_pmul.
    - have := le_trans (landau (lead_coef G * lead_coef H) (rs ++ ss)) (N2_l1 _). rewrite -EP ler_pexpn2r // ?nnegrE // mulr_ge0 //. exact: le_trans (mahler_ge1 _). }
  rewrite {1}Eg coefZ normrM Sg. apply: le_trans (ler_wpmul2l _ (coef_mahler rs j)) _; first exact: normr_ge0. rewrite mulrCA. apply: ler_wpmul2l => //. exact: ler0n.
Qed.
End Mignotte.
(* the largest binomial coefficient of a row *)
Lemma bin_half n j : ('C(n, j) <= 'C(n, n %/ 2))%N.
Proof.
  have up k : (k.*2 < n)%N -> ('C(n, k) <= 'C(n, k.+1))%N.
  { move=> Hk. rewrite -(leq_pmul2l (ltn0Sn k)) mul_bin_left. apply: leq_mul => //. rewrite ltn_subRL. by rewrite addnn. }
  have mono k d : ((k + d).*2 <= n.+1)%N -> ('C(n, k) <= 'C(n, k + d))%N.
  { elim: d => [|d IH]; rewrite ?addn0 // addnS => H. apply: leq_trans (IH _) (up _ _); first by apply: leq_trans H; rewrite doubleS; apply: ltnW; apply: ltnW. by move: H; rewrite doubleS !ltnS. }
  case: (leqP j (n %/ 2)) => Hj. { have := @mono j (n %/ 2 - j)%N. rewrite subnKC //. apply. apply: leqW. by rewrite -muln2 leq_trunc_div. }
  case: (leqP j n) => Hjn; last by rewrite bin_small.
  rewrite -bin_sub //. have Hs : (n - j <= n %/ 2)%N.
  { rewrite leq_subLR. apply: leq_trans (_ : (n %/ 2 + (n %/ 2).+1 <= _)%N); last by rewrite addnC leq_add2r. rewrite addnS addnn. have := ltn_pmod n (isT : 0 < 2)%N. rewrite {2}(divn_eq n 2) muln2. by case: (n %% 2)%N => [|[|r]] // _; rewrite ?addn0 ?addn1. }
  have := @mono (n - j)%N (n %/ 2 - (n - j))%N. rewrite subnKC //. apply. apply: leqW. by rewrite -muln2 leq_trunc_div.
Qed.
