(* the factorisation tree: check, linear and quadratic lifts, construction *)
From Coq Require Import List Arith NArith Bool.
From mathcomp Require Import all_ssreflect all_algebra.
From mathcomp Require Import zify.
From Coq Require Import Lia Ring.
From Verif Require Import RingSpec RingModel RingProofs RingProofs2 PermModel MatModel MatSpec MatInst PolyModel PolyProofs PolyProofs2 PolyProofs3 PolyProps PolyHom McRing QuotRing HenselSpec HenselModel HenselProofs HenselProofs2 HenselProofs3.
Close Scope rs_scope.
Set Implicit Arguments.
Unset Strict Implicit.
Unset Printing Implicit Defensive.
Import GRing.Theory.
Local Open Scope ring_scope.

Section Id.
Variable A : comRingType.
Add Ring A_ring4 : (mc_rt A).
Lemma bd_id (a b f g df dg : A) : (1 + (a * f + b * g - 1 + a * df + b * dg) = a * (f + df) + b * (g + dg))%mcr. Proof. ring. Qed.
Lemma quad_id2 (s bd d j : A) : (1 - (j * d) * (j * d) + (j * j) * (s - s * bd) = 1 + (j * j) * (s - s * bd - d * d))%mcr. Proof. ring. Qed.
End Id.
Section T.
Variable R : idomainType.
Notation O := (mc_ops R).
Variables (div : div_op O) (ffa : ffa_op O) (norm : R -> option N) (quorem : R -> R -> option (R * R)).
Hypothesis D : idom_laws O div.
Hypothesis F : ffa_laws O ffa.
Hypothesis E : euclid_laws O norm quorem.
Hypothesis M : norm_mono O norm.
Notation rm m := (q_rem (R := O) quorem m).
Notation hp := (@hprod O).
Notation lc h := (lead_coef (Poly h)).
Variable i : R.
Hypothesis i0 : i != 0.
Hypothesis iu : i \isn't a GRing.unit.
Hypothesis small : forall k, (0 < k)%N -> rm (i ^+ k) 1 = 1.
Lemma ik0 k : i ^+ k != 0. Proof. by rewrite expf_neq0. Qed.
Lemma iku k : (0 < k)%N -> i ^+ k \isn't a GRing.unit. Proof. move=> H. by rewrite unitrX_pos. Qed.

(* e: the power of i modulo which the Bezout coefficients are right *)
Fixpoint inv (e n : nat) (h : seq R) (t : hp) : Prop :=
  match t with
  | Leaf => True
  | Branch f ff g gf a b =>
      [/\ Poly f \is monic, Poly g \is monic, (1 < size (Poly h))%N & comax (lc h) i] /\
      cong (i ^+ n) (Poly h) ((lc h)%:P * Poly f * Poly g) /\ cong (i ^+ e) (Poly a * Poly f + Poly b * Poly g) 1 /\ inv e n f ff /\ inv e n g gf
  end.
Lemma inv_h e n (h h' : seq R) t : lc h' = lc h -> size (Poly h') = size (Poly h) -> cong (i ^+ n) (Poly h') (Poly h) -> inv e n h t -> inv e n h' t.
Proof.
  case: t => //= f ff g gf a b El Es C [[H1 H2 H3 H4] [H5 H6]]. rewrite El Es. split=> //. split=> //. exact: cong_trans C H5.
Qed.
Lemma inv_e e e' n h t : (e' <= e)%N -> inv e n h t -> inv e' n h t.
Proof.
  move=> He. elim: t h => [|f ff IHf g gf IHg a b] h; first by []. cbn [inv]. move=> [H1 [H2 [H3 [H4 H5]]]]. split=> //. split=> //. split; first exact: cong_pow He H3.
  split; [exact: IHf|exact: IHg].
Qed.
Lemma Q_bez m (a b f g : seq R) : m != 0 -> m \isn't a GRing.unit ->
  cong m (Poly (@sum (poly_ops (@quotient_ops O quorem m)) [:: @rmul (poly_ops (@quotient_ops O quorem m)) a f; @rmul (poly_ops (@quotient_ops O quorem m)) b g; @rneg (poly_ops (@quotient_ops O quorem m)) (@r1 (poly_ops (@quotient_ops O quorem m)))]))
    (Poly a * Poly f + Poly b * Poly g - 1).
Proof.
  move=> m0 mu. apply: cong_trans (Q_sum3 D E M m0 mu _ _ _) _. apply: cong_add; first by apply: cong_add; exact: (Q_mul D E M m0 mu).
  apply: cong_trans (Q_neg _ _ _) _. rewrite -[@r1 _]/([:: (1:R)]) Poly1. exact: cong_refl.
Qed.
Lemma cong1_0 m (X : {poly R}) : cong m X 1 -> cong m (X - 1) 0.
Proof. move=> H. rewrite -(subrr 1). apply: cong_sub => //. exact: cong_refl. Qed.
Lemma check_ok (lifted : bool) e (n : N) h t : (0 < N.to_nat n)%N -> (0 < e)%N -> (lifted -> N.to_nat n <= e)%N -> inv e (N.to_nat n) h t ->
  @check_prod O quorem lifted t h i n = Some true.
Proof.
  move=> n0 e0 Hl. elim: t h => [|f ff IHf g gf IHg a b] h; first by []. cbn [inv check_prod]. move=> [[H1 H2 H3 H4] [H5 [H6 [H7 H8]]]]. rewrite (IHf _ H7) (IHg _ H8). cbn [obind negb].
  rewrite [@is_zero O i](negbTE i0). cbn [negb]. rewrite nat_powE. set m := i ^+ _. have m0 : m != 0 := ik0 _. have mu : m \isn't a GRing.unit := iku n0.
  rewrite [@is_zero O m](negbTE m0). cbn [negb].
  have -> : @p_is_zero (@quotient_ops O quorem i) (@sum (poly_ops (@quotient_ops O quorem i)) [:: @rmul (poly_ops (@quotient_ops O quorem i)) a f; @rmul (poly_ops (@quotient_ops O quorem i)) b g; @rneg (poly_ops (@quotient_ops O quorem i)) (@r1 (poly_ops (@quotient_ops O quorem i)))]).
  { apply/(Q_is_zero D E M i0 iu). apply: cong_trans (Q_bez _ _ _ _ i0 iu) _. apply: cong1_0. rewrite -[i]expr1. exact: cong_pow e0 H6. }
  cbn [negb].
  have -> : lifted && ~~ @p_is_zero (@quotient_ops O quorem m) (@sum (poly_ops (@quotient_ops O quorem m)) [:: @rmul (poly_ops (@quotient_ops O quorem m)) a f; @rmul (poly_ops (@quotient_ops O quorem m)) b g; @rneg (poly_ops (@quotient_ops O quorem m)) (@r1 (poly_ops (@quotient_ops O quorem m)))]) = false.
  { case: lifted Hl {IHf IHg} => [/(_ isT) Hl|_]; last by []. cbn [andb]. apply/negbTE. rewrite negbK. apply/(Q_is_zero D E M m0 mu). apply: cong_trans (Q_bez _ _ _ _ m0 mu) _. apply: cong1_0. exact: cong_pow Hl H6. }
  have h0 : Poly h != 0 by rewrite -size_poly_gt0 ltnW. rewrite p_leading_coeffE (negbTE h0). cbn [obind]. congr Some. 
  apply/(Q_equal D E M m0 mu). apply: cong_trans H5 _. apply: cong_sym. exact: (Q_prod3 D E M).
Qed.

(* how a factor changes when lifting from i^n *)
Definition lifts n (f f' : seq R) : Prop := [/\ cong (i ^+ n) (Poly f') (Poly f), lc f' = lc f & size (Poly f') = size (Poly f)].
Lemma lifts_refl n f : lifts n f f. Proof. split=> //. exact: cong_refl. Qed.
Lemma lifts_trans n m f g h : (n <= m)%N -> lifts n f g -> lifts m g h -> lifts n f h.
Proof. move=> Hn [C1 L1 S1] [C2 L2 S2]. split; [|by rewrite L2|by rewrite S2]. exact: cong_trans (cong_pow Hn C2) C1. Qed.
Lemma clf_i (n : N) a b f g h : (0 < N.to_nat n)%N -> Poly f \is monic -> Poly g \is monic -> (1 < size (Poly h))%N -> comax (lc h) i ->
  cong (i ^+ N.to_nat n) (Poly h) ((lc h)%:P * Poly f * Poly g) -> cong i (Poly a * Poly f + Poly b * Poly g) 1 ->
  exists df dg f' g', [/\ @compute_lift_factors O div ffa norm quorem i n a b f g h = Some (df, dg, f', g'),
    cong (i ^+ (N.to_nat n).+1) (Poly h) ((lc h)%:P * Poly f' * Poly g'), Poly f' \is monic, Poly g' \is monic & lifts (N.to_nat n) f f' /\ lifts (N.to_nat n) g g'].
Proof.
  move=> n0 Mf Mg Sh CM Ch Cab. have [df [dg [f' [g' [H1 H2 [H3 H4 H5 H6] [H7 H8 H9 H10]]]]]] := clf_ok D F E M n0 i0 iu (small (ltn0Sn _)) Mf Mg Sh CM Ch Cab.
  have L (x x' dx : seq R) : Poly x \is monic -> Poly x' \is monic -> size (Poly x') = size (Poly x) -> cong (i ^+ N.to_nat n) (Poly dx) 0 -> cong (i ^+ (N.to_nat n).+1) (Poly x') (Poly x + Poly dx) -> lifts (N.to_nat n) x x'.
  { move=> Mx Mx' S C0 C. split=> //; last by rewrite (monicP Mx) (monicP Mx'). apply: cong_trans (cong_pow (leqnSn _) C) _.
    rewrite -[X in cong _ _ X]addr0. apply: cong_add => //. exact: cong_refl. }
  exists df, dg, f', g'. split=> //. split; [exact: L H5 H6|exact: L H9 H10].
Qed.
Lemma fac_app n h1 h2 t1 t2 h1' h2' t1' t2' : List.Forall2 (lifts n) (@factor_list O h1 t1) (@factor_list O h1' t1') ->
  List.Forall2 (lifts n) (@factor_list O h2 t2) (@factor_list O h2' t2') ->
  List.Forall2 (lifts n) (@factor_list O h1 t1 ++ @factor_list O h2 t2) (@factor_list O h1' t1' ++ @factor_list O h2' t2').
Proof. exact: List.Forall2_app. Qed.
Lemma linear_ok (n : N) t : (0 < N.to_nat n)%N -> forall h h', lifts (N.to_nat n) h h' -> inv 1 (N.to_nat n) h t ->
  exists t', [/\ @linear_lift_prod O div ffa norm quorem i n h' t = Some t', inv 1 (N.to_nat n).+1 h' t' &
    List.Forall2 (lifts (N.to_nat n)) (@factor_list O h t) (@factor_list O h' t')].
Proof.
  move=> n0. elim: t => [|f ff IHf g gf IHg a b] h h' Lh.
  - move=> _. exists (@Leaf O). split=> //=. by constructor.
  - move=> Hi. have {Hi} : inv 1 (N.to_nat n) h' (Branch f ff g gf a b) by case: Lh => *; apply: inv_h Hi.
    cbn [inv linear_lift_prod quadratic_lift_prod]. move=> [[H1 H2 H3 H4] [H5 [H6 [H7 H8]]]]. rewrite expr1 in H6.
    have [df [dg [f' [g' [-> C Mf' Mg' [Lf Lg]]]]]] := clf_i n0 H1 H2 H3 H4 H5 H6. cbn [obind].
    have [ff' [-> If Ff]] := IHf _ _ Lf H7. have [gf' [-> Ig Fg]] := IHg _ _ Lg H8. cbn [obind].
    have In : inv 1 (N.to_nat n).+1 h' (Branch f' ff' g' gf' a b).
    { split=> //. split=> //. split=> //. rewrite expr1. apply: cong_trans H6. case: Lf Lg => Cf _ _ [Cg _ _].
      apply: cong_add; (apply: cong_mul; first exact: cong_refl); rewrite -[i]expr1; [exact: cong_pow Cf|exact: cong_pow Cg]. }
    have Hn : N.to_nat (n + 1) = (N.to_nat n).+1 by lia. have -> : @check_prod O quorem false (Branch f' ff' g' gf' a b) h' i (n + 1) = Some true.
    { apply: (@check_ok false 1) => //; rewrite ?Hn //. }
    cbn [obind]. exists (Branch f' ff' g' gf' a b). split=> //. exact: fac_app.
Qed.
Lemma quadratic_ok (n : N) t : (0 < N.to_nat n)%N -> forall h h', lifts (N.to_nat n) h h' -> inv (N.to_nat n) (N.to_nat n) h t ->
  exists t', [/\ @quadratic_lift_prod O div ffa norm quorem i n h' t = Some t', inv (N.to_nat n * 2) (N.to_nat n * 2) h' t' &
    List.Forall2 (lifts (N.to_nat n)) (@factor_list O h t) (@factor_list O h' t')].
Proof.
  move=> n0. elim: t => [|f ff IHf g gf IHg a b] h h' Lh.
  - move=> _. exists (@Leaf O). split=> //=. by constructor.
  - move=> Hi. have {Hi} : inv (N.to_nat n) (N.to_nat n) h' (Branch f ff g gf a b) by case: Lh => *; apply: inv_h Hi.
    cbn [inv linear_lift_prod quadratic_lift_prod]. move=> [[H1 H2 H3 H4] [H5 [H6 [H7 H8]]]]. have n20 : (0 < N.to_nat n * 2)%N by lia.
    rewrite !nat_powE. have -> : N.to_nat (n * 2) = (N.to_nat n * 2)%N by lia. set k := N.to_nat n in n0 n20 Lh H5 H6 H7 H8 IHf IHg *.
    set m := i ^+ (k * 2). have m0 : m != 0 := ik0 _. have mu : m \isn't a GRing.unit := iku n20. rewrite [@is_zero O m](negbTE m0). cbn [negb].
    have CM : comax (lc h') (i ^+ k).
    { have [u [v Huv]] := H4. elim: (k) => [|j [u' [v' IH]]]; first by exists 0, 1; rewrite mul0r add0r mul1r expr0.
      exists (u' + v' * (i ^+ j) * u), (v' * v). rewrite exprS. exact: comax_id Huv IH. }
    have Em : (i ^+ k) ^+ 2 = m by rewrite -exprM.
    have [df [dg [f' [g' [-> C [Mf' Sf' df0 Cf] [Mg' Sg' dg0 Cg]]]]]] := @clf_ok R div ffa norm quorem D F E M (i ^+ k) 1%num a b f g h' isT (ik0 k) (iku n0) (etrans (congr1 (fun z => rm z 1) Em) (small n20)) H1 H2 H3 CM H5 H6.
    rewrite -[N.to_nat 1]/1%N expr1 in df0 dg0. rewrite -[(N.to_nat 1).+1]/2%N Em in C Cf Cg. cbn [obind].
    set bd := @sum _ _.
    have Cbd : cong m (Poly bd) (Poly a * Poly f + Poly b * Poly g - 1 + Poly a * Poly df + Poly b * Poly dg).
    { apply: cong_trans (Q_sum3 D E M m0 mu _ _ _) _. apply: cong_add; last exact: (Q_mul D E M m0 mu). apply: cong_add; last exact: (Q_mul D E M m0 mu). exact: (Q_bez _ _ _ _ m0 mu). }
    have Cab : cong m (Poly a * Poly f' + Poly b * Poly g') (1 + Poly bd).
    { apply: cong_trans (_ : cong m _ (Poly a * (Poly f + Poly df) + Poly b * (Poly g + Poly dg))) _.
      - apply: cong_add; (apply: cong_mul; first exact: cong_refl); [exact: Cf|exact: Cg].
      - apply: cong_sym. apply: cong_trans (cong_add (cong_refl _ _) Cbd) _. have := bd_id (Poly a) (Poly b) (Poly f) (Poly g) (Poly df) (Poly dg). rewrite /madd /mmul /msub /mone => ->. exact: cong_refl. }
    have Cbd0 : cong (i ^+ k) (Poly bd) 0.
    { apply: cong_trans (cong_pow (_ : (k <= k * 2)%N) Cbd) _; first by lia. rewrite -[X in cong _ _ X]addr0. apply: cong_add; last by rewrite -(mulr0 (Poly b)); apply: cong_mul => //; exact: cong_refl.
      rewrite -[X in cong _ _ X]addr0. apply: cong_add; last by rewrite -(mulr0 (Poly a)); apply: cong_mul => //; exact: cong_refl.
      exact: cong1_0. }
    have -> : @p_equal (@quotient_ops O quorem m) (@p_add (@quotient_ops O quorem m) (@p_mul (@quotient_ops O quorem m) a f') (@p_mul (@quotient_ops O quorem m) b g')) (@p_add (@quotient_ops O quorem m) bd (@p_one (@quotient_ops O quorem m))).
    { apply/(Q_equal D E M m0 mu). apply: cong_trans (Q_add D E M m0 mu _ _) _. apply: cong_trans (cong_add (Q_mul D E M m0 mu _ _) (Q_mul D E M m0 mu _ _)) _.
      apply: cong_trans Cab _. apply: cong_sym. apply: cong_trans (Q_add D E M m0 mu _ _) _. rewrite -[@p_one _]/([:: (1:R)]) Poly1 addrC. exact: cong_refl. }
    set a' := @p_add (@quotient_ops O quorem m) a _. set b' := @p_add (@quotient_ops O quorem m) b _.
    have Ca x : cong m (Poly (@p_add (@quotient_ops O quorem m) x (@p_neg (@quotient_ops O quorem m) (@p_mul (@quotient_ops O quorem m) x bd)))) (Poly x - Poly x * Poly bd).
    { apply: cong_trans (Q_add D E M m0 mu _ _) _. apply: cong_add; first exact: cong_refl. apply: cong_trans (Q_neg _ _ _) _. apply: cong_opp. exact: (Q_mul D E M m0 mu). }
    have L (x x' dx : seq R) : Poly x \is monic -> Poly x' \is monic -> size (Poly x') = size (Poly x) -> cong (i ^+ k) (Poly dx) 0 -> cong m (Poly x') (Poly x + Poly dx) -> lifts k x x'.
    { move=> Mx Mx' S C0 C1. split=> //; last by rewrite (monicP Mx) (monicP Mx'). apply: cong_trans (cong_pow (_ : (k <= k * 2)%N) C1) _; first by lia.
      rewrite -[X in cong _ _ X]addr0. apply: cong_add => //. exact: cong_refl. }
    have Lf := L _ _ _ H1 Mf' Sf' df0 Cf. have Lg := L _ _ _ H2 Mg' Sg' dg0 Cg.
    have [ff' [-> If Ff]] := IHf _ _ Lf H7. have [gf' [-> Ig Fg]] := IHg _ _ Lg H8. cbn [obind].
    have In : inv (k * 2) (k * 2) h' (Branch f' ff' g' gf' a' b').
    { cbn [inv]. split=> //. split=> //. split=> //. rewrite -/m.
      apply: cong_trans (cong_add (cong_mul (Ca a) (cong_refl _ _)) (cong_mul (Ca b) (cong_refl _ _))) _.
      have /congE [s Hs] := Cab. have /cong0E [d Hd] := Cbd0. have := quad_id Hs. rewrite /madd /mmul /msub /mone => ->. apply/congE. exists (s - s * Poly bd - d * d).
      have -> : m%:P = (i ^+ k)%:P * (i ^+ k)%:P by rewrite -polyCM -Em expr2. rewrite {1 2}Hd. exact: quad_id2. }
    have -> : @check_prod O quorem true (Branch f' ff' g' gf' a' b') h' i (n * 2) = Some true.
    { have Hn : N.to_nat (n * 2) = (k * 2)%N by rewrite /k; lia. apply: (@check_ok true (k * 2)); rewrite ?Hn //. }
    cbn [obind]. exists (Branch f' ff' g' gf' a' b'). split=> //. exact: fac_app.
Qed.
End T.
