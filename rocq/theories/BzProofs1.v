(* The algebra behind Berlekamp-Zassenhaus: how factors of f over R correspond to sets of modular factors. *)
From mathcomp Require Import all_ssreflect all_algebra.
From Verif Require Import McRing FfProofs HenselSpec HenselProofs HenselProofs2.
Set Implicit Arguments.
Unset Strict Implicit.
Unset Printing Implicit Defensive.
Import GRing.Theory.
Local Open Scope ring_scope.

Section Id.
Variable A : comRingType.
Add Ring Aring : (mc_rt A).
Lemma cl_id (U' V' U V a b z : A) : ((U' + z * U) * a + (V' + z * V) * b + z * (1 - (U * a + V * b)) = U' * a + V' * b + z)%mcr. Proof. ring. Qed.
End Id.
Section Fld.
Variable K : fieldType.
Implicit Types (A B P Q : {poly K}) (q : nat -> {poly K}) (s : seq nat).
Lemma irc A B : irreducible_poly A -> ~~ (A %| B) -> coprimep A B.
Proof.
  move=> [HA I] N. rewrite /coprimep. apply/eqP. have D := dvdp_gcdl A B. apply/eqP/negPn/negP => H. have := I _ H D => E. apply: (negP N). rewrite -(eqp_dvdl _ E). exact: dvdp_gcdr.
Qed.
Lemma prod_neq0 q s : {in s, forall i, q i != 0} -> \prod_(i <- s) q i != 0.
Proof. move=> H. rewrite prodf_seq_neq0. apply/allP => i Hi /=. exact: H. Qed.
Lemma prod_dvd q s i : uniq s -> {in s, forall i, irreducible_poly (q i)} -> {in s &, forall i j, i != j -> coprimep (q i) (q j)} ->
  i \in s -> forall t, {subset t <= s} -> uniq t -> (q i %| \prod_(j <- t) q j) = (i \in t).
Proof.
  move=> U I C Hi t Ht Ut. case Et: (i \in t); first by rewrite (big_rem i) //= dvdp_mulr.
  apply/negbTE/negP => D. have Hc : coprimep (q i) (\prod_(j <- t) q j).
  { elim: t Ht Ut Et {D} => [|j t IH] Ht /= Ut Et; first by rewrite big_nil coprimep1. move: Et. rewrite inE => /norP [N1 N2]. case/andP: Ut => _ Ut.
    rewrite big_cons coprimepMr C //=; last by apply: Ht; rewrite mem_head. apply: IH => //; [by move=> x Hx; apply: Ht; rewrite inE Hx orbT|exact/negbTE]. }
  have [H1 _] := I _ Hi. have := coprimep_dvdl D Hc. rewrite coprimepp => /eqP E. by rewrite E in H1.
Qed.
Lemma dvd_prod q s A : uniq s -> {in s, forall i, irreducible_poly (q i)} -> {in s &, forall i j, i != j -> coprimep (q i) (q j)} ->
  A %| \prod_(i <- s) q i -> A %= \prod_(i <- s | q i %| A) q i.
Proof.
  elim: s A => [|x s IH] A /=; first by rewrite !big_nil dvdp1 -size_poly_eq1.
  case/andP=> Hx U I C. have Is : {in s, forall i, irreducible_poly (q i)} by move=> i Hi; apply: I; rewrite inE Hi orbT.
  have Cs : {in s &, forall i j, i != j -> coprimep (q i) (q j)} by move=> i j Hi Hj; apply: C; rewrite inE ?Hi ?Hj orbT.
  have Cx i : i \in s -> coprimep (q i) (q x). { move=> Hi. apply: C; rewrite ?mem_head ?inE ?Hi ?orbT //. apply: contraNneq Hx => E. by rewrite -E. }
  have Ix := I _ (mem_head _ _). rewrite !big_cons. case: ifPn => D.
  - case/dvdpP: (D) => A' EA. rewrite EA mulrC => DA. have q0 : q x != 0 by rewrite -size_poly_gt0; case: Ix => H _; exact: ltn_trans H.
    rewrite dvdp_mul2l // in DA. rewrite eqp_mul2l //. have := IH A' U Is Cs DA. congr (_ %= _). rewrite big_seq_cond [RHS]big_seq_cond. apply: eq_bigl => i. case Hi: (i \in s) => //=. by rewrite Gauss_dvdpr // Cx.
  - move=> DA. have CA : coprimep A (q x) by rewrite coprimep_sym; exact: irc.
    rewrite Gauss_dvdpr // in DA. exact: IH.
Qed.
End Fld.

Section Red.
Variables (R : idomainType) (K : fieldType) (phi : {rmorphism R -> K}) (p : R).
Hypothesis ker : forall x, phi x = 0 <-> exists c, x = p * c.
Notation red := (map_poly phi).
Variables (f : {poly R}) (G : seq {poly R}).
Notation n := (size G).
Notation L := (lead_coef f).
Hypothesis Lp : phi L != 0.
Variable u : K.
Hypothesis u0 : u != 0.
Hypothesis fE : red f = u *: \prod_(g <- G) red g.
Notation q := (fun i => red G`_i).
Hypothesis Irr : forall i, (i < n)%N -> irreducible_poly (q i).
Hypothesis Cop : forall i j, (i < n)%N -> (j < n)%N -> i != j -> coprimep (q i) (q j).
Lemma fE' : red f = u *: \prod_(i <- iota 0 n) q i.
Proof. rewrite fE. congr (_ *: _). by rewrite (big_nth 0) /index_iota subn0. Qed.
Lemma Uio : uniq (iota 0 n). Proof. exact: iota_uniq. Qed.
Lemma Iio : {in iota 0 n, forall i, irreducible_poly (q i)}. Proof. move=> i. rewrite mem_iota add0n. exact: Irr. Qed.
Lemma Cio : {in iota 0 n &, forall i j, i != j -> coprimep (q i) (q j)}. Proof. move=> i j. rewrite !mem_iota !add0n. exact: Cop. Qed.
(* the modular factors of F *)
Definition rset (F : {poly R}) : seq nat := [seq i <- iota 0 n | q i %| red F].
Lemma mem_rset F i : (i \in rset F) = (i < n)%N && (q i %| red F).
Proof. by rewrite mem_filter mem_iota add0n andbC. Qed.
Lemma rset_uniq F : uniq (rset F). Proof. exact: filter_uniq Uio. Qed.
Lemma rset_sub F : {subset rset F <= iota 0 n}. Proof. move=> i. by rewrite mem_filter => /andP []. Qed.
Lemma lead_dvd F H : F * H = f -> phi (lead_coef F) != 0 /\ phi (lead_coef H) != 0.
Proof. move=> E. move: Lp. rewrite -E lead_coefM rmorphM mulf_eq0 negb_or => /andP []. by split. Qed.
Lemma size_red F : phi (lead_coef F) != 0 -> size (red F) = size F. Proof. exact: size_map_poly_id0. Qed.
Lemma red_dvd F H : F * H = f -> red F %| \prod_(i <- iota 0 n) q i.
Proof. move=> E. have : red F %| red f by rewrite -E rmorphM dvdp_mulr. by rewrite fE' dvdpZr. Qed.
Lemma red_rset F H : F * H = f -> red F %= \prod_(i <- rset F) q i.
Proof. move=> E. have := dvd_prod Uio Iio Cio (red_dvd E). by rewrite -big_filter. Qed.
Lemma prod_dvd' i t : (i < n)%N -> {subset t <= iota 0 n} -> uniq t -> (q i %| \prod_(j <- t) q j) = (i \in t).
Proof. move=> Hi. apply: (prod_dvd Uio Iio Cio). by rewrite mem_iota add0n. Qed.
Lemma n_iota i : (i < n)%N -> i \in iota 0 n. Proof. by rewrite mem_iota add0n. Qed.
(* the factors of F1 F2 are those of F1 and those of F2, and no factor is in both *)
Lemma rset_mul F1 F2 H : F1 * F2 * H = f -> forall i, (i \in rset (F1 * F2)) = (i \in rset F1) || (i \in rset F2).
Proof.
  move=> E i. rewrite !mem_rset rmorphM. case Hi: (i < n)%N => //=. apply/idP/orP.
  - move=> D. case D1: (q i %| red F1); [by left|right]. have CA : coprimep (q i) (red F1) by apply: irc; [exact: Irr|rewrite D1]. by rewrite Gauss_dvdpr in D.
  - by case=> D; [exact: dvdp_mulr|exact: dvdp_mull].
Qed.
Lemma rset_disj F1 F2 H : F1 * F2 * H = f -> forall i, i \in rset F1 -> i \in rset F2 -> False.
Proof.
  move=> E i. rewrite !mem_rset => /andP [Hi D1] /andP [_ D2]. have D : q i * q i %| red f by rewrite -E rmorphM rmorphM dvdp_mulr // dvdp_mul.
  rewrite fE' dvdpZr // (big_rem i) ?n_iota //= dvdp_mul2l in D; last by rewrite -size_poly_gt0; have [H0 _] := Irr Hi; exact: ltn_trans H0.
  move: D. rewrite prod_dvd' // ?rem_uniq ?Uio //; first by rewrite mem_rem_uniq ?Uio // inE eqxx.
  move=> x. exact: mem_rem.
Qed.
Lemma rset_f : rset f = iota 0 n.
Proof. apply/all_filterP/allP => i Hi. rewrite fE' dvdpZr // (big_rem i) //=. exact: dvdp_mulr. Qed.
Lemma rset_dvd F1 F2 i : i \in rset F1 -> i \in rset (F1 * F2).
Proof. rewrite !mem_rset rmorphM => /andP [-> D] /=. exact: dvdp_mulr. Qed.
(* degrees *)
Lemma size_rset F H : F * H = f -> size F = (\sum_(i <- rset F) (size (q i)).-1).+1.
Proof.
  move=> E. have [LF _] := lead_dvd E. rewrite -(size_red LF) (eqp_size (red_rset E)). have : {in rset F, forall i, (1 < size (q i))%N} by move=> i; rewrite mem_rset => /andP [Hi _]; have [H1 _] := Irr Hi.
  elim: (rset F) => [|i s IH] Hs; first by rewrite !big_nil size_poly1. rewrite !big_cons size_mul.
  - rewrite IH; last by move=> j Hj; apply: Hs; rewrite inE Hj orbT. have := Hs i (mem_head _ _). case: (size (q i)) => // k _. by rewrite addSn addnS.
  - rewrite -size_poly_gt0. apply: ltn_trans (Hs i (mem_head _ _)). by [].
  - apply: prod_neq0 => j Hj. rewrite -size_poly_gt0. have : j \in i :: s by rewrite inE Hj orbT. move/Hs. exact: ltn_trans.
Qed.
Lemma rset_nonconst F H : F * H = f -> (1 < size F)%N = (rset F != [::]).
Proof.
  move=> E. rewrite (size_rset E) ltnS lt0n. case Er: (rset F) => [|i s]; first by rewrite big_nil. rewrite big_cons /=.
  have : i \in rset F by rewrite Er mem_head. rewrite mem_rset => /andP [Hi _]. have [H1 _] := Irr Hi. by case: (size (q i)) H1 => [|[|k]].
Qed.
(* a multiple of L G_S modulo p that is a multiple of a divisor of f *)
Lemma rset_cand F S (X : {poly R}) c : uniq S -> {subset S <= iota 0 n} -> cong p X (L *: \prod_(i <- S) G`_i) -> X = c *: F -> forall i, (i \in rset F) = (i \in S).
Proof.
  move=> US Ss C EX i. have EP : red X = phi L *: \prod_(j <- S) q j.
  { have [D ->] := (congE p X (L *: \prod_(i <- S) G`_i)).1 C. have Z : phi p = 0 by apply/ker; exists 1; rewrite mulr1. by rewrite rmorphD rmorphM /= map_polyC /= Z polyC0 mul0r addr0 map_polyZ rmorph_prod. }
  have P0 : red X != 0. { rewrite EP scaler_eq0 negb_or Lp /=. apply: prod_neq0 => j /Ss. rewrite mem_iota add0n => /Irr [H _]. rewrite -size_poly_gt0. exact: ltn_trans H. }
  have c0 : phi c != 0. { apply: contraNneq P0 => H. by rewrite EX map_polyZ /= H scale0r. }
  rewrite mem_rset. case Hi: (i < n)%N => /=; last by apply/esym/negbTE/negP => /Ss; rewrite mem_iota add0n Hi.
  have -> : (q i %| red F) = (q i %| red X) by rewrite EX map_polyZ dvdpZr. by rewrite EP dvdpZr // prod_dvd'.
Qed.
(* the lifted factors determine F up to its leading coefficient *)
Section Lift.
Variable t : nat.
Hypothesis t0 : (0 < t)%N.
Notation M := (p ^+ t).
Hypothesis Mon : forall g, g \in G -> g \is monic.
Hypothesis fC : cong M f (L *: \prod_(g <- G) g).
Hypothesis surj : forall y : K, exists x, phi x = y.
Variables (Q : comRingType) (psi : {rmorphism R -> Q}).
Local Notation ps := (map_poly psi).
Hypothesis kerM : forall x, psi x = 0 <-> exists c, x = M * c.
Lemma red_surj (A : {poly K}) : exists B, red B = A.
Proof.
  elim/poly_ind: A => [|A c [B EB]]; first by exists 0; rewrite rmorph0. have [x Ex] := surj c. exists (B * 'X + x%:P). by rewrite rmorphD rmorphM /= map_polyX map_polyC /= EB Ex.
Qed.
Lemma red0 (A : {poly R}) : red A = 0 -> exists S, A = p%:P * S.
Proof.
  move=> H. have /congE [S E] : cong p A 0. { move=> k. rewrite coef0 subr0. apply/ker. by rewrite -coef_map H coef0. } exists S. by rewrite E add0r.
Qed.
Lemma cop_lift (A B : {poly R}) : coprimep (red A) (red B) -> exists U V S, U * A + V * B + p%:P ^+ t * S = 1.
Proof.
  move=> /Bezout_eq1_coprimepP [[u' v'] E]. cbn [fst snd] in E. have [U EU] := red_surj u'. have [V EV] := red_surj v'.
  have [S ES] : exists S, 1 - (U * A + V * B) = p%:P * S. { apply: red0. by rewrite rmorphB rmorphD !rmorphM /= EU EV E rmorph1 subrr. }
  elim: t t0 => // k IH _. case: k IH => [|k] IH.
  - exists U, V, S. by rewrite expr1 -ES addrC subrK.
  - have [//|U' [V' [S' E']]] := IH. exists (U' + p%:P ^+ k.+1 * S' * U), (V' + p%:P ^+ k.+1 * S' * V), (S' * S).
    rewrite -[RHS]E'. have -> : p%:P ^+ k.+2 * (S' * S) = p%:P ^+ k.+1 * S' * (1 - (U * A + V * B)) by rewrite ES exprSr mulrACA. 
    exact: cl_id.
Qed.
Lemma prodC_split F : \prod_(g <- G) g = (\prod_(i <- rset F) G`_i) * \prod_(i <- [seq i <- iota 0 n | ~~ (q i %| red F)]) G`_i.
Proof. rewrite (big_nth 0) /index_iota subn0 (bigID (fun i => q i %| red F)) /=. congr (_ * _); by rewrite -big_filter. Qed.
Lemma Mon' s : {subset s <= iota 0 n} -> \prod_(i <- s) G`_i \is monic.
Proof. move=> H. rewrite big_seq. apply: monic_prod => i /H. rewrite mem_iota add0n => Hi. apply: Mon. exact: mem_nth. Qed.
Lemma lift_eq F H : F * H = f -> cong M (lead_coef H *: F) (L *: \prod_(i <- rset F) G`_i).
Proof.
  move=> E. set P := \prod_(i <- rset F) G`_i. set P' := \prod_(i <- [seq i <- iota 0 n | ~~ (q i %| red F)]) G`_i.
  have [LF LH] := lead_dvd E. have MP : P \is monic by apply: Mon'; exact: rset_sub.
  have CP : coprimep (red H) (red P).
  { rewrite /P rmorph_prod coprimep_sym. have : {subset rset F <= rset F} by []. move: {1 3}(rset F) => s. elim: s => [|i s IH] Hs; first by rewrite big_nil coprime1p.
    rewrite big_cons coprimepMl. apply/andP. split; last by apply: IH => j Hj; apply: Hs; rewrite inE Hj orbT.
    have Hi := Hs i (mem_head _ _). have := Hi. rewrite mem_rset => /andP [Hn _]. apply: irc; first exact: Irr. apply/negP => D. have E1 : F * H * 1 = f by rewrite mulr1.
    apply: (rset_disj E1 Hi). by rewrite mem_rset Hn. }
  have [U [V [S ES]]] := cop_lift CP.
  have M0 : ps (p%:P ^+ t) = 0 by rewrite -polyC_exp map_polyC /=; have -> : psi M = 0 by (apply/kerM; exists 1; rewrite mulr1).
  have Eps : ps U * ps H + ps V * ps P = 1. { have := congr1 (map_poly psi) ES. by rewrite !rmorphD !rmorphM /= M0 mul0r addr0 rmorph1. }
  have EFH : ps F * ps H = (psi L)%:P * (ps P * ps P').
  { rewrite -rmorphM E. have [S' ES'] := (congE M f (L *: \prod_(g <- G) g)).1 fC. rewrite [in LHS]ES' rmorphD rmorphM /= map_polyC /=. have -> : psi M = 0 by (apply/kerM; exists 1; rewrite mulr1). rewrite mul0r addr0 map_polyZ -mul_polyC (prodC_split F). by rewrite -/P -/P' rmorphM /=. }
  have [C EC] : exists C, ps F = C * ps P.
  { exists (ps U * (psi L)%:P * ps P' + ps V * ps F). rewrite mulrDl -[LHS]mulr1 -Eps mulrDr. congr (_ + _).
    - rewrite mulrCA EFH !mulrA. by rewrite mulrAC.
    - by rewrite mulrCA !mulrA. }
  have pF : psi (lead_coef F) != 0. { apply: contraNneq LF => /kerM [c ->]. apply/eqP/ker. exists (p ^+ t.-1 * c). by rewrite mulrA -exprS prednK. }
  have SF : size (ps F) = size F by apply: size_map_poly_id0. have MpP : ps P \is monic by apply: monic_map. have SP : size (ps P) = size P by apply: size_map_poly_id0; rewrite (monicP MP) rmorph1 oner_neq0.
  have SFP : size F = size P.
  { rewrite (size_rset E). have EP : red P = \prod_(i <- rset F) q i by rewrite /P rmorph_prod. have : size (red P) = size P by apply: size_red; rewrite (monicP MP) rmorph1 oner_neq0.
    rewrite EP => <-. by rewrite -(eqp_size (red_rset E)) (size_red LF) -(size_rset E). }
  have C0 : C != 0. { apply: contraNneq pF => Z. have : size (ps F) = 0%N by rewrite EC Z mul0r size_poly0. rewrite SF => /eqP. rewrite size_poly_eq0 => /eqP ->. by rewrite lead_coef0 rmorph0. }
  have SC : size C = 1%N. { have := size_Mmonic C0 MpP. rewrite -EC SF SFP SP. have : (0 < size C)%N by rewrite size_poly_gt0. have : (0 < size P)%N by rewrite size_poly_gt0; exact: monic_neq0.
    case: (size P) => // a _. case: (size C) => // b _. rewrite addSn addnS /= => /eqP. rewrite -{1}[a]add0n eqSS eqn_add2r => /eqP <-. by []. }
  have EC' : C = (psi (lead_coef F))%:P.
  { have [c EC1] : exists c, C = c%:P by exists C`_0; apply: size1_polyC; rewrite SC. rewrite EC1. congr _%:P. have : lead_coef (ps F) = c. { rewrite EC EC1 lead_coef_Mmonic // lead_coefC. by []. } move=> <-. by rewrite lead_coefE SF coef_map /= -lead_coefE. }
  have EL : ps (lead_coef H *: F) = ps (L *: P).
  { rewrite !map_polyZ /= EC EC' -!mul_polyC mulrA -polyCM -rmorphM. congr (_%:P * _). by rewrite -E lead_coefM mulrC. }
  move=> k. apply/kerM. rewrite rmorphB -!(coef_map psi). by rewrite EL subrr.
Qed.
End Lift.
End Red.
