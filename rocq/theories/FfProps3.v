(* C67: distinct degree factorisation and Cantor-Zassenhaus over a finite field. *)
From Coq Require Import List Arith NArith Bool.
From mathcomp Require Import all_ssreflect all_fingroup all_algebra all_solvable all_field separable.
From mathcomp Require Import zify.
From Coq Require Import Lia.
From Verif Require Import RingSpec RingModel RingProofs FactoredSpec FactoredModel FactoredProofs PermModel MatModel MatSpec MatInst LatModel PolyModel PolyProofs PolyProofs2 PolyProofs3 PolyProofs11 PolyProofs12 PolyProps FacModel FacProofs FacProofs2 FacProofs4 FfModel FfSpec FfProofs FfProofs2 FfProofs3 FfProofs4 FfProofs5 FfProofs6 FfProofs7 FfProofs8 FfProofs9 FfProofs10 FfProofs11 FfProps FfProps2.
Close Scope rs_scope.
Set Implicit Arguments.
Unset Strict Implicit.
Unset Printing Implicit Defensive.
Import GRing.Theory.
Local Open Scope ring_scope.

Section C67.
Variable F : finFieldType.
Notation R := [idomainType of F].
Notation O := (mc_ops R).
Notation P := (poly_ops O).
Variables (div : div_op O) (ffa : ffa_op O) (gcd : R -> R -> R).
Hypothesis D : idom_laws O div.
Hypothesis FD : forall x y : R, y != 0 -> exists q, div x y = DivOk q.
Hypothesis FA : ffa_laws O ffa.
Hypothesis G : gcd_laws O ffa gcd.
(* characteristic_and_power() *)
Variables pchar pexp : N.
Hypothesis qE : N.to_nat (N.pow pchar pexp) = #|F|.
Implicit Types (f g h : seq F) (A B : {poly F}).
(* the factors of a DistinctDegreeFactored as polynomials *)
Definition ddf_list (l : seq (ddf O * N)) : seq (nat * {poly F} * nat) := map (fun x : ddf O * N => (dd_degree x.1, Poly (dd_poly x.1 : seq F), N.to_nat x.2)) l.

Lemma pwcP (l : seq {poly F}) : pairwise_coprime l <-> pairwise (@coprimep F) l.
Proof.
  split.
  - move=> H. apply/(pairwiseP 0) => i j Hi Hj Lij. by apply: H; rewrite Lij.
  - move/(pairwiseP 0) => H i j /andP [Lij Hj]. by apply: H => //; rewrite inE; apply: ltn_trans Hj.
Qed.
Lemma coprime_degs d e A B : A != 0 -> irr_eq d A -> irr_eq e B -> d != e -> coprimep A B.
Proof.
  move=> A0 HA HB NE. rewrite /coprimep. apply: contraT => Hs. have g0 : gcdp A B != 0 by rewrite gcdp_eq0 (negPf A0).
  have [|C [IC _ DC]] := @irr_divisor F _ (gcdp A B) _ (leqnn _). { by rewrite ltn_neqAle eq_sym Hs size_poly_gt0. }
  move: NE. rewrite -(HA C IC (dvdp_trans DC (dvdp_gcdl _ _))) -(HB C IC (dvdp_trans DC (dvdp_gcdr _ _))). by rewrite eqxx.
Qed.
Lemma blks_ok (l : seq (seq F * N)) (bss : seq (seq (ddf O * N))) : List.Forall2 (@blk_of R) l bss -> let L := ddf_list (flatten bss) in
  [/\ \prod_(x <- L) x.1.2 ^+ x.2 = \prod_(x <- factor_list l) x.1 ^+ x.2,
      forall x, x \in L -> [/\ x.1.2 \is monic, (1 < size x.1.2)%N, irr_eq x.1.1 x.1.2 & exists2 y, y \in factor_list l & x.2 = y.2 /\ x.1.2 %| y.1],
      pairwise_coprime (map fst (factor_list l)) -> pairwise_coprime (map (fun x => x.1.2) L) &
      uniq (map snd (factor_list l)) -> uniq (map (fun x => (x.1.1, x.2)) L)].
Proof.
  elim=> [|[f k] bs l' bss' [Hb1 [Hb2 Hb3]] _ [I1 I2 I3 I4]] /=; first by split=> //; rewrite ?big_nil // => x; rewrite in_nil.
  rewrite /= in Hb1 Hb2. set L1 := ddf_list bs. set L2 := ddf_list (flatten bss') in I1 I2 I3 I4.
  have EL : ddf_list (bs ++ flatten bss') = L1 ++ L2 by rewrite /ddf_list map_cat.
  have Ef : Poly f = \prod_(x <- L1) x.1.2 by rewrite Hb1 big_map.
  have Sd : sorted ltn (map (fun x => x.1.1) L1) by move: Hb3; rewrite /degs /L1 -map_comp.
  have M1 x : x \in L1 -> [/\ x.1.2 \is monic, (1 < size x.1.2)%N, irr_eq x.1.1 x.1.2 & x.2 = N.to_nat k /\ x.1.2 %| Poly f].
  { move=> Hx. have /(MatProofs4.in_mem x) := Hx. rewrite /L1 /ddf_list -mapE => /List.in_map_iff [y [Ey Hy]]. have [H1 H2 H3 H4] := Hb2 y Hy. rewrite -Ey /= H1 in Hx *. split=> //. split=> //. rewrite Ef (big_rem _ Hx) /=. exact: dvdp_mulIl. }
  rewrite EL. clearbody L1. split.
  - rewrite big_cat /= I1 big_cons /=. congr (_ * _). rewrite Ef -prodrXl big_seq [RHS]big_seq. apply: eq_bigr => x Hx /=. by have [_ _ _ [-> _]] := M1 x Hx.
  - move=> x. rewrite mem_cat => /orP [Hx|Hx].
    + have [H1 H2 H3 [H4 H5]] := M1 x Hx. split=> //. exists (Poly f, N.to_nat k) => //. exact: mem_head.
    + have [H1 H2 H3 [y Hy H5]] := I2 x Hx. split=> //. exists y => //. by rewrite inE Hy orbT.
  - move=> /pwcP /= /andP [C1 C2]. apply/pwcP. rewrite map_cat pairwise_cat. apply/and3P. split; last by apply/pwcP; apply: I3; apply/pwcP.
    + apply/allrelP => A B /mapP [x Hx ->] /mapP [y Hy ->]. have [_ _ _ [_ H1]] := M1 x Hx. have [_ _ _ [z Hz [_ H2]]] := I2 y Hy. apply: coprimep_dvdl H2 _. apply: coprimep_dvdr H1 _.
      move/allP: C1; apply. exact: map_f.
    + move: Sd. rewrite (sorted_pairwise ltn_trans) !pairwise_map. apply: (sub_in_pairwise (P := mem L1)); [|exact/allP] => x y Hx Hy /= Lxy. have [H1 _ H2 _] := M1 x Hx. have [_ _ H4 _] := M1 y Hy.
      apply: (coprime_degs (monic_neq0 H1) H2 H4). by rewrite neq_ltn Lxy.
  - move=> /= /andP [U1 U2]. rewrite map_cat cat_uniq I4 // andbT. apply/andP. split.
    + apply: (@map_uniq _ _ (@fst nat nat)). rewrite -map_comp. exact: (sorted_uniq ltn_trans ltnn Sd).
    + apply/hasPn => z /mapP [x Hx ->]. apply/negP => /mapP [y Hy [_ E2]]. have [_ _ _ [w Hw [E3 _]]] := I2 x Hx. have [_ _ _ [E4 _]] := M1 y Hy. move/negP: U1; apply. rewrite -E4 -E2 E3. exact: map_f.
Qed.
Lemma q_pos : (0 < #|F|)%N. Proof. exact: ltnW (finRing_gt1 _). Qed.
(* from any squarefree factorisation to the distinct degree factorisation *)
Theorem C67_distinct_degree (s : sqfree_factored O) A : squarefree_factorization A (s_unit s) (factor_list (s_factors s)) ->
  exists d, [/\ @factorize_distinct_degree O div ffa gcd pchar pexp s = Some d, d_unit d = s_unit s & distinct_degree_factorization A (d_unit d) (ddf_list (d_factors d))].
Proof.
  case=> [[Hu EA] HM HSq HC [HU HE]]. have [p _ Cp] := finCharP F.
  have Hl x : x \in s_factors s -> [/\ Poly x.1 \is monic, (1 < size (Poly x.1))%N, sep (Poly x.1) & irr_ge 1 (Poly x.1)].
  { move=> Hx. have Hx' : (Poly x.1, N.to_nat x.2) \in factor_list (s_factors s) by apply/mapP; exists x. have [M S1] := HM _ Hx'. split=> //; last exact: irr_ge1. apply: (sqf_sep Cp) => //. exact: HSq _ Hx'. }
  have [bss [E1 E2]] := @dd_fold_ok R div D FD ffa FA gcd G #|F| (@expf_card F) (@frobq F) pchar pexp qE q_pos (fun i B C E => @dd_step F i B E C) (@dd_exit F) (@irr_eq_self F) (s_factors s) Hl [::].
  exists (@DdFactored O (s_unit s) (flatten bss)). rewrite /factorize_distinct_degree. split=> //; first by rewrite E1. have [K1 K2 K3 K4] := blks_ok E2. cbn [d_unit d_factors]. split.
  - by rewrite K1.
  - move=> x /K2 [H1 H2 _ [y Hy [_ H3]]]. split=> // B HB. apply: (HSq y Hy). exact: dvdp_trans HB H3.
  - by move=> x /K2 [].
  - exact: K3.
  - split; first exact: K4. by move=> x /K2 [_ _ _ [y Hy [-> _]]]; exact: HE.
Qed.

(* ------------------------------------------------------------------ Cantor-Zassenhaus *)
Hypothesis Cp : N.to_nat pchar \in [char F].
Definition dd_ok (x : ddf O * N) : Prop := [/\ Poly (dd_poly x.1 : seq F) \is monic, (1 < size (Poly (dd_poly x.1 : seq F)))%N, sep (Poly (dd_poly x.1 : seq F)), irr_eq (dd_degree x.1) (Poly (dd_poly x.1 : seq F)) & (0 < N.to_nat x.2)%N /\ (0 < dd_degree x.1)%N].
Lemma ddf_ok A u (l : seq (ddf O * N)) : distinct_degree_factorization A u (ddf_list l) -> forall x, List.In x l -> dd_ok x.
Proof.
  case=> _ H1 H2 _ [_ H3] x Hx. have Hx' : (dd_degree x.1, Poly (dd_poly x.1 : seq F), N.to_nat x.2) \in ddf_list l by apply/(MatProofs4.in_mem _); rewrite /ddf_list -mapE; apply/List.in_map_iff; exists x.
  have [M S1 Sq] := H1 _ Hx'. have Hd := H2 _ Hx'. have He := H3 _ Hx'. split=> //; first exact: (sqf_sep Cp M Sq). split=> //. have [C [IC _ DC]] := irr_divisor S1 (leqnn _). have := Hd C IC DC. case: IC => H _ /= <-. by case: (size C) H => [|[]].
Qed.
Notation fold_cz rnd fuel := (List.fold_left (fun acc x => do o <- acc; match o with Some fs => @cz_one O div ffa pchar pexp rnd fuel x fs | None => Some None end)).
Lemma cz_fold (rnd : nat -> F) fuel (l : seq (ddf O * N)) (fs : factored P) : (forall x, List.In x l -> dd_ok x) -> okf div ffa fs ->
  exists o, [/\ fold_cz rnd fuel l (Some (Some fs)) = Some o,
    forall r, o = Some r -> okf div ffa r /\ Poly (@expand P r) = Poly (@expand P fs) * \prod_(x <- ddf_list l) x.1.2 ^+ x.2 &
    (0 < fuel)%N -> (forall x, List.In x l -> separated pchar pexp rnd (dd_poly x.1) (dd_degree x.1) fuel.-1) -> o <> None].
Proof.
  elim: l fs => [|[[d f] k] l IH] fs Hl Of. { exists (Some fs). split=> // r [<-]. by rewrite big_nil mulr1. }
  have [M S1 Sf Hd [k0 d0]] := Hl _ (or_introl erefl). cbn [List.fold_left obind]. have [o [-> E2 E3]] := cz_one_ok D FD FA pchar pexp rnd (f := f) M k0 fuel d0 S1 Sf Hd Of.
  case: o E2 E3 => [r|] E2 E3; last first.
  - exists None. split=> //; last by move=> fu Hs; case: (E3 fu (Hs _ (or_introl erefl))). elim: (l) => //.
  - have [O1 X1] := E2 r erefl. have [|o [-> E5 E6]] := IH r _ O1; first by move=> x Hx; apply: Hl; right. exists o. split=> //.
    + move=> r' /E5 [H1 ->]. by rewrite X1 big_cons mulrA.
    + move=> fu Hs. apply: E6 => // x Hx. apply: Hs. by right.
Qed.
Lemma ddf_lead A u (l : seq (ddf O * N)) : distinct_degree_factorization A u (ddf_list l) -> lead_coef A = u.
Proof. case=> [[_ ->] HM _ _ _]. rewrite lead_coefZ (monicP _) ?mulr1 // big_seq. apply: monic_prod => x /HM [M _ _]. exact: monic_exp. Qed.
Lemma okf_u (u : F) : u != 0 -> okf div ffa (@factored_unit_unchecked P [:: u]) /\ Poly (@expand P (@factored_unit_unchecked P [:: u])) = u%:P.
Proof.
  move=> Hu. split; first by apply: (@okf_unit R div ffa [:: u]); apply/punitE; exists u; [by rewrite unitfE|exact: Poly1].
  by rewrite (exE D) Poly1 [powers_prod _]/= Poly1 polyC1 mulr1.
Qed.
(* for every stream of field elements and every number of rounds: no panic, and a result, if there is one by then, is the factorisation into irreducibles *)
Theorem C67_cantor_zassenhaus (rnd : nat -> F) (rounds : nat) (d : dd_factored O) A : distinct_degree_factorization A (d_unit d) (ddf_list (d_factors d)) ->
  exists o, @factorize_cantor_zassenhaus O div ffa pchar pexp rnd rounds d = Some o /\
    forall r, o = Some r -> Poly (f_unit r : seq F) = (d_unit d)%:P /\ irreducible_factorization A (d_unit d) (factor_list (f_factors r)).
Proof.
  move=> Hd. have [[Hu EA] _ _ _ _] := Hd. have [O0 X0] := okf_u Hu. have [o [E1 E2 _]] := cz_fold rnd rounds (ddf_ok Hd) O0. exists o. split; first exact: E1.
  move=> r /E2 [O1 X1]. have EA' : Poly (@expand P r) = A by rewrite X1 X0 EA mul_polyC. have [H1 H2] := okf_irf D FD FA O1 EA'. by rewrite (ddf_lead Hd) in H1 H2.
Qed.
(* it ends as soon as every vector of coefficients has been drawn *)
Definition draws (rnd : nat -> F) (K n : nat) : Prop := forall v : seq F, size v = n -> exists2 j, (j < K)%N & forall i, (i < n)%N -> rnd (j * n + i)%N = nth 0 v i.
Lemma HHE (rnd : nat -> F) (f : seq F) k : HH rnd f k = mkseq (fun i => rnd (k * (size (Poly f)).-1 + i)%N) (size (Poly f)).-1.
Proof. by rewrite /HH mapE seqE. Qed.
Lemma draws_separated (rnd : nat -> F) K (x : ddf O * N) : dd_ok x -> draws rnd K (size (Poly (dd_poly x.1 : seq F))).-1 -> separated pchar pexp rnd (dd_poly x.1) (dd_degree x.1) K.
Proof.
  move=> [M S1 Sf Hd [_ d0]] HK A B IA IB DA DB NE. have f0 := monic_neq0 M. set f := dd_poly x.1 in M S1 Sf Hd HK DA DB f0 *.
  have C : coprimep A B. { rewrite irr_coprime' //. apply/negP => H. case: IB => _ /(_ A) K'. move/negP: NE; apply. apply: K' => //. case: IA => H1 _. by rewrite neq_ltn H1 orbT. }
  have [H [SH HN]] := separator Cp qE IA IB NE (Hd A IA DA) d0.
  have SH' : (size H <= (size (Poly (f : seq F))).-1)%N. { have : (size (A * B)%R <= size (Poly (f : seq F)))%N by apply: dvdp_leq => //; rewrite Gauss_dvdp // DA DB. move: SH. clear. move: (size H) (size _) (size _) => a b c. lia. }
  have [j Hj Ej] := HK (mkseq (fun i => H`_i) (size (Poly (f : seq F))).-1) (size_mkseq _ _). exists j => //.
  have -> : Poly (HH rnd f j) = H; last exact: HN. apply/polyP => i. rewrite coef_Poly HHE. case: (ltnP i (size (Poly (f : seq F))).-1) => Hi.
  - by rewrite nth_mkseq // Ej // nth_mkseq.
  - rewrite !nth_default ?size_mkseq //. exact: leq_trans SH' Hi.
Qed.
Theorem C67_cantor_zassenhaus_ends (rnd : nat -> F) (K : nat) (d : dd_factored O) A : distinct_degree_factorization A (d_unit d) (ddf_list (d_factors d)) ->
  (forall x, x \in ddf_list (d_factors d) -> draws rnd K (size x.1.2).-1) ->
  exists r, @factorize_cantor_zassenhaus O div ffa pchar pexp rnd K.+1 d = Some (Some r).
Proof.
  move=> Hd HK. have [[Hu EA] _ _ _ _] := Hd. have [O0 X0] := okf_u Hu. have [o [E1 _ E3]] := cz_fold rnd K.+1 (ddf_ok Hd) O0.
  case: o E1 E3 => [r|] E1 E3; first by exists r. case: E3 => // x Hx. apply: draws_separated; first exact: (ddf_ok Hd Hx). apply: (HK (dd_degree x.1, Poly (dd_poly x.1 : seq F), N.to_nat x.2)).
  apply/(MatProofs4.in_mem _). rewrite /ddf_list -mapE. apply/List.in_map_iff. by exists x.
Qed.
(* whatever has been drawn so far, it can still end *)
Lemma draw_all (reqs : seq (nat * seq F)) (w : seq F) : (forall x, x \in reqs -> (0 < x.1)%N) ->
  exists t, forall x, x \in reqs -> exists2 j, (j < size (w ++ t))%N & forall i, (i < x.1)%N -> nth 0 (w ++ t) (j * x.1 + i)%N = nth 0 x.2 i.
Proof.
  elim: reqs w => [|[n v] reqs IH] w H; first by exists [::]. have n0 : (0 < n)%N := H _ (mem_head _ _).
  pose j := (size w).+1. pose w1 := w ++ nseq (j * n - size w) 0. have Sw : size w1 = (j * n)%N. { rewrite size_cat size_nseq subnKC // /j. rewrite (leq_trans (leqnSn _)) // leq_pmulr //. }
  have [|t Ht] := IH (w1 ++ mkseq (fun i => nth 0 v i) n); first by move=> x Hx; apply: H; rewrite inE Hx orbT.
  exists (nseq (j * n - size w) 0 ++ mkseq (fun i => nth 0 v i) n ++ t). have -> : w ++ nseq (j * n - size w) 0 ++ mkseq (fun i => nth 0 v i) n ++ t = (w1 ++ mkseq (fun i => nth 0 v i) n) ++ t by rewrite /w1 !catA.
  move=> x. rewrite inE => /orP [/eqP ->|Hx] /=; last exact: Ht. clearbody w1. exists j.
  - rewrite !size_cat Sw size_mkseq. have : (j <= j * n)%N by rewrite leq_pmulr. move: n0. clear. move: (j * n)%N (size t) => a b. lia.
  - move=> i Hi. rewrite nth_cat size_cat Sw size_mkseq ltn_add2l Hi nth_cat Sw ltnNge leq_addr /= addKn nth_mkseq //.
Qed.
Theorem C67_cantor_zassenhaus_never_stuck (rnd : nat -> F) (drawn : nat) (d : dd_factored O) A : distinct_degree_factorization A (d_unit d) (ddf_list (d_factors d)) ->
  exists rnd' rounds r, (forall i, (i < drawn)%N -> rnd' i = rnd i) /\ @factorize_cantor_zassenhaus O div ffa pchar pexp rnd' rounds d = Some (Some r).
Proof.
  move=> Hd. pose L := ddf_list (d_factors d). pose tl (x : nat * {poly F} * nat) : seq (nat * seq F) := [seq ((size x.1.2).-1, tval v) | v <- enum [finType of (size x.1.2).-1.-tuple F]]. pose reqs := flatten (map tl L).
  have [|t Ht] := @draw_all reqs (mkseq rnd drawn). { move=> y /flattenP [s /mapP [x Hx ->] /mapP [v _ ->]] /=. have [_ /(_ _ Hx) [_ S1 _] _ _ _] := Hd. by case: (size x.1.2) S1 => [|[]]. }
  set w := _ ++ t in Ht. have [|r Er] := @C67_cantor_zassenhaus_ends (nth 0 w) (size w) d A Hd.
  { move=> x Hx v Sv. have [|j Hj Ej] := Ht ((size x.1.2).-1, v). { apply/flattenP. eexists; first exact: (map_f _ Hx). apply/mapP. by exists (Tuple (introT eqP Sv)) => //; rewrite mem_enum. } by exists j. }
  exists (nth 0 w), (size w).+1, r. split=> // i Hi. by rewrite /w nth_cat size_mkseq Hi nth_mkseq.
Qed.
(* the conversions between the factored forms forget structure but keep the polynomial *)
Theorem C67_into_monic_factored (s : sqfree_factored O) A : expands_to A (s_unit s) (factor_list (s_factors s)) -> (forall x, x \in factor_list (s_factors s) -> x.1 \is monic) ->
  [/\ m_unit (into_monic_factored s) = lead_coef A, Poly (m_monic (into_monic_factored s) : seq F) = (lead_coef A)^-1 *: A & Poly (into_polynomial (into_monic_factored s) : seq F) = A].
Proof.
  case=> Hu EA HM. have K (l : seq (seq F * N)) (a : seq F) : Poly (List.fold_left (fun acc fk => p_mul (R := O) acc (nat_pow (R := P) (fst fk) (snd fk))) l a) = Poly a * \prod_(x <- factor_list l) x.1 ^+ x.2.
  { elim: l a => [|[f k] l IH] a /=; first by rewrite big_nil mulr1. by rewrite IH p_mulE Poly_polyseq pnat_powE big_cons mulrA. }
  have MA : \prod_(x <- factor_list (s_factors s)) x.1 ^+ x.2 \is monic by rewrite big_seq; apply: monic_prod => x /HM M; exact: monic_exp.
  have El : lead_coef A = s_unit s by rewrite EA lead_coefZ (monicP MA) mulr1. rewrite El. cbn [into_monic_factored m_unit m_monic]. split=> //.
  - by rewrite K Poly1 polyC1 mul1r EA scalerA mulVf // scale1r.
  - by rewrite /into_polynomial p_mulE Poly_polyseq K !Poly1 polyC1 mul1r EA mul_polyC.
Qed.
Theorem C67_into_squarefree_factored (d : dd_factored O) A : distinct_degree_factorization A (d_unit d) (ddf_list (d_factors d)) ->
  let s := into_squarefree_factored d in expands_to A (s_unit s) (factor_list (s_factors s)) /\
  forall x, x \in factor_list (s_factors s) -> [/\ x.1 \is monic, (1 < size x.1)%N & squarefree x.1].
Proof.
  case=> [[Hu EA] HM _ _ _] /=. have E : factor_list (List.map (fun x : ddf O * N => (dd_poly x.1, x.2)) (d_factors d)) = map (fun x : nat * {poly F} * nat => (x.1.2, x.2)) (ddf_list (d_factors d)).
  { rewrite /factor_list /ddf_list mapE -!map_comp. by apply: eq_map. }
  rewrite E. split; first by rewrite /expands_to big_map. by move=> x /mapP [y /HM H ->].
Qed.
Theorem C67_into_distinct_degree_factored (r : factored P) u A : Poly (f_unit r : seq F) = u%:P -> irreducible_factorization A u (factor_list (f_factors r)) ->
  exists d, [/\ @into_distinct_degree_factored O r = Some d, d_unit d = u & A = u *: \prod_(x <- ddf_list (d_factors d)) x.1.2 ^+ x.2] /\
    forall x, x \in ddf_list (d_factors d) -> [/\ x.1.2 \is monic, irreducible_poly x.1.2, (0 < x.2)%N & x.1.1 = (size x.1.2).-1].
Proof.
  move=> Hu [[Hu0 EA] HI _]. rewrite /into_distinct_degree_factored p_as_constantE Hu size_polyC Hu0 coefC /=. cbn [obind].
  have K (l : seq (seq F * N)) : (forall x, x \in factor_list l -> irreducible_poly x.1) ->
    mapM (fun fk => do d <- @p_degree O (fst fk); Some (@Ddf O d (fst fk), snd fk)) l = Some (map (fun x : seq F * N => (@Ddf O (size (Poly x.1)).-1 x.1, x.2)) l).
  { elim: l => [|[f k] l IH] H //. have /= [S1 _] := H _ (mem_head _ _). cbn [mapM fst snd]. rewrite p_degreeE. case Es: (size (Poly f)) => [|n]; first by rewrite Es in S1. cbn [obind]. rewrite IH => [|x Hx]; [by rewrite /=|by apply: H; rewrite inE Hx orbT]. }
  rewrite K; last by move=> x /HI []. cbn [obind]. eexists; split; first by split=> //; rewrite {1}EA /= /ddf_list !big_map.
  move=> x. rewrite /= /ddf_list -map_comp => /mapP [y Hy ->] /=. by have [] := HI (Poly y.1, N.to_nat y.2) (map_f _ Hy).
Qed.
End C67.
Print Assumptions C67_distinct_degree. Print Assumptions C67_cantor_zassenhaus. Print Assumptions C67_cantor_zassenhaus_ends. Print Assumptions C67_cantor_zassenhaus_never_stuck.
Print Assumptions C67_into_monic_factored. Print Assumptions C67_into_squarefree_factored. Print Assumptions C67_into_distinct_degree_factored.
(* the whole chain monic - squarefree - distinct degree - Cantor-Zassenhaus over the prime field of order p: whatever the stream, no step panics and a result is the factorisation *)
Section Fp.
Variable p : nat.
Hypothesis Hp : prime p.
Notation F := [finFieldType of 'F_p].
Notation R := [idomainType of F].
Notation O := (mc_ops R).
Lemma Fp_char : N.to_nat (N.of_nat p) \in [char F].
Proof. rewrite Nat2N.id. exact: char_Fp. Qed.
Lemma Fp_q : N.to_nat (N.pow (N.of_nat p) 1) = #|F|.
Proof. by rewrite N.pow_1_r Nat2N.id card_Fp. Qed.
Theorem C67_factor_prime_field (rnd : nat -> F) (rounds : nat) (f : seq F) : Poly f != 0 ->
  exists m s d o, [/\ @factorize_monic O (@Fdiv _) (@Fffa _) f = Some (Some m), @factorize_squarefree_top O (@Fdiv _) (@Fffa _) (N.of_nat p) m = Some s,
    @factorize_distinct_degree O (@Fdiv _) (@Fffa _) (@fgcd R) (N.of_nat p) 1 s = Some d, @factorize_cantor_zassenhaus O (@Fdiv _) (@Fffa _) (N.of_nat p) 1 rnd rounds d = Some o &
    forall r, o = Some r -> Poly (f_unit r : seq F) = (lead_coef (Poly f))%:P /\ irreducible_factorization (Poly f) (lead_coef (Poly f)) (factor_list (f_factors r))].
Proof.
  move=> Hf. have D := bz_idom (Fbezout F). have FA := bz_ffa (Fbezout F). have FD := @Fdiv_total F. have Cp : p \in [char F] by exact: char_Fp. have Ep : #|F| = p by rewrite card_Fp.
  have [m [s [E1 E2 E3]]] := C65_squarefree_prime_field D FD FA Cp Ep Hf. have [d [E4 E5 E6]] := C67_distinct_degree D FD FA (fgcd_ok FA (field_unit D FD)) Fp_q E3.
  have [o [E7 E8]] := C67_cantor_zassenhaus D FD FA 1 Fp_char rnd rounds E6. exists m, s, d, o. split=> // r /E8.
  have Hlc : s_unit s = lead_coef (Poly f). { case: E3 => [[_ ->] HM _ _ _]. rewrite lead_coefZ (monicP _) ?mulr1 // big_seq. apply: monic_prod => x /HM [M _]. exact: monic_exp. }
  by rewrite E5 Hlc.
Qed.
End Fp.
Print Assumptions C67_factor_prime_field.
(* and the algorithms run over the field with four elements *)
Definition F4_gcd (a b : F4) : F4 := match a, b with Zero, Zero => Zero | _, _ => One end.
Definition F4_rnd (i : nat) : F4 := nth Zero [:: Alpha; One; Beta; Zero; One; Beta; Alpha; Alpha; Zero; One] (i %% 10).
Definition C67_ex_d : dd_factored F4_ops := @DdFactored F4_ops Beta [:: (@Ddf F4_ops 1 [:: Zero; One; Zero; Zero; One], 3%num); (@Ddf F4_ops 2 [:: Beta; One; One], 3%num)].
Example C67_ex_dd : @factorize_distinct_degree F4_ops F4_div F4_ffa F4_gcd 2 2 (@SqfreeFactored F4_ops Beta [:: ([:: Zero; Beta; One; One; Beta; One; One], 3%num)]) = Some C67_ex_d.
Proof. vm_compute. by []. Qed.
Example C67_ex_running : @factorize_cantor_zassenhaus F4_ops F4_div F4_ffa 2 2 F4_rnd 2 C67_ex_d = Some None.
Proof. vm_compute. by []. Qed.
Example C67_ex_done : @factorize_cantor_zassenhaus F4_ops F4_div F4_ffa 2 2 F4_rnd 20 C67_ex_d = Some (Some (@Factored (poly_ops F4_ops) [:: Beta]
  [:: ([:: Alpha; One], 3%num); ([:: Zero; One], 3%num); ([:: One; One], 3%num); ([:: Beta; One], 3%num); ([:: Beta; One; One], 3%num)])).
Proof. vm_compute. by []. Qed.
