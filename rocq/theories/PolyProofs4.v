(* Interpolation *)
From Coq Require Import List Arith NArith Bool.
From mathcomp Require Import all_ssreflect all_algebra.
From mathcomp Require Import zify.
From Coq Require Import Lia.
From Verif Require Import RingSpec RingModel RingProofs PermModel MatModel MatSpec MatProofs MatProofs2 PolyModel PolyProofs PolyProofs2 PolyProofs3.
Close Scope rs_scope.
Set Implicit Arguments.
Unset Strict Implicit.
Unset Printing Implicit Defensive.
Import GRing.Theory Pdiv.Ring Pdiv.RingMonic.
Local Open Scope ring_scope.

Lemma rangeE a b : range a b = index_iota a b.
Proof. by rewrite /range seqE minusE. Qed.

Section B.
Variable R : comRingType.
Notation O := (mc_ops R).
Lemma fold_mulE (A : Type) (c : A -> bool) (g : A -> seq R) l (t : seq R) :
  Poly (List.fold_left (fun t j => if c j then @p_mul O t (g j) else t) l t) = Poly t * \prod_(j <- l | c j) Poly (g j).
Proof.
  elim: l t => [|j l IH] t /=; first by rewrite big_nil mulr1. rewrite IH big_cons. case: (c j) => //.
  by rewrite p_mulE Poly_polyseq mulrA.
Qed.
Lemma fold_mulE' (A : Type) (g : A -> seq R) l (t : seq R) :
  Poly (List.fold_left (fun t j => @p_mul O t (g j)) l t) = Poly t * \prod_(j <- l) Poly (g j).
Proof. exact: (@fold_mulE A xpredT g l t). Qed.
Lemma fold_mulE2 (A : Type) (G : A -> {poly R}) (f : seq R -> A -> seq R) l (t : seq R) : (forall t j, Poly (f t j) = Poly t * G j) ->
  Poly (List.fold_left f l t) = Poly t * \prod_(j <- l) G j.
Proof. move=> H. elim: l t => [|j l IH] t /=; first by rewrite big_nil mulr1. by rewrite IH H big_cons mulrA. Qed.
Lemma fold_addE (A : Type) (g : A -> seq R) l (t : seq R) :
  Poly (List.fold_left (fun t j => @p_add O t (g j)) l t) = Poly t + \sum_(j <- l) Poly (g j).
Proof. elim: l t => [|j l IH] t /=; first by rewrite big_nil addr0. by rewrite IH p_addE Poly_polyseq big_cons addrA. Qed.

Variable n : nat.
Lemma vander_split (F : nat -> nat -> R) i : (i < n)%N ->
  \prod_(0 <= j < n) \prod_(j.+1 <= k < n) F j k =
  (\prod_(i.+1 <= k < n) F i k) * (\prod_(0 <= j < i) F j i) * \prod_(0 <= j < n) \prod_(j.+1 <= k < n | (i != j) && (i != k)) F j k.
Proof.
  move=> Hi. rewrite !big_mkord (bigD1 (Ordinal Hi)) //= -mulrA. congr (_ * _).
  rewrite [X in _ = _ * X](bigD1 (Ordinal Hi)) //=. rewrite [X in _ = _ * (X * _)]big1_seq; last by move=> k; rewrite eqxx.
  have W : \prod_(j < i) F j i = \prod_(j < n | j != Ordinal Hi) (if (j < i)%N then F j i else 1).
  { rewrite (big_ord_widen _ (fun j => F j i) (ltnW Hi)) [LHS]big_mkcond /= (bigD1 (Ordinal Hi)) //= ltnn mul1r //. }
  rewrite mul1r {}W -big_split /=.
  apply: eq_bigr => j Hj. have Hij : (i != j) by apply: contra Hj => /eqP E; apply/eqP/val_inj.
  rewrite !big_geq_mkord Hij /=. case: ltnP => H.
  - rewrite (bigD1 (Ordinal Hi)) //=. congr (_ * _). apply: eq_bigl => k. by rewrite andbC eq_sym -(inj_eq val_inj).
  - rewrite mul1r. apply: eq_bigl => k. case: eqP => [<-|] //=. by rewrite ltnNge H.
Qed.
End B.

Lemma Poly2 (R : comRingType) (a b : R) : Poly [:: a; b] = a%:P + b%:P * 'X.
Proof. by rewrite -[Poly _]/(cons_poly a (Poly [:: b])) cons_poly_def Poly1 addrC. Qed.
Section L.
Variable R : idomainType.
Notation O := (mc_ops R).
Variable div : div_op O.
Hypothesis D : idom_laws O div.
Variable pts : seq (R * R).
Notation x i := (nth (0, 0) pts i).1.
Notation y i := (nth (0, 0) pts i).2.
Notation n := (size pts).

Lemma termE i : Poly (@lagrange_term O pts i) =
  (y i)%:P * (\prod_(i.+1 <= j < n) ('X - (x j)%:P)) * (\prod_(0 <= j < i) ((x j)%:P - 'X)) *
  (\prod_(0 <= j < n) \prod_(j.+1 <= k < n | (i != j) && (i != k)) (x j - x k)%:P).
Proof.
  rewrite /lagrange_term (@fold_mulE2 _ _ (fun j => \prod_(j.+1 <= k < n | (i != j) && (i != k)) (x j - x k)%:P)); last first.
  { move=> t j. rewrite (@fold_mulE _ _ (fun k => negb (Nat.eqb i j) && negb (Nat.eqb i k))) rangeE plusE addn1 lengthE. congr (_ * _).
    rewrite !eqb_nat. apply: eq_big => k; rewrite ?eqb_nat // => _. by rewrite /p_const Poly1 /fst_at !nthE /= addrC. }
  rewrite !fold_mulE' !rangeE plusE addn1 lengthE /p_const Poly1. congr (_ * _ * _ * _).
  - by rewrite /snd_at nthE.
  - apply: eq_bigr => j _. by rewrite Poly2 /fst_at nthE polyC1 mul1r polyCN addrC.
  - apply: eq_bigr => j _. by rewrite Poly2 /fst_at nthE polyCN polyC1 mulN1r.
Qed.
Notation V := (\prod_(0 <= j < n) \prod_(j.+1 <= k < n) (x j - x k)).
Lemma denE : Poly (@lagrange_denominator O pts) = V%:P.
Proof.
  rewrite /lagrange_denominator (@fold_mulE2 _ _ (fun j => (\prod_(j.+1 <= k < n) (x j - x k))%:P)).
  - have -> : Poly (@p_one O) = 1 by exact: (@Poly1 R 1). by rewrite mul1r rangeE lengthE rmorph_prod.
  - move=> t j. rewrite fold_mulE' rangeE plusE addn1 lengthE rmorph_prod. congr (_ * _). apply: eq_bigr => k _.
    rewrite /fst_at !nthE [x j - _]addrC. exact: Poly1.
Qed.
Lemma numE : Poly (@lagrange_numerator O pts) = \sum_(0 <= i < n) Poly (@lagrange_term O pts i).
Proof. by rewrite /lagrange_numerator fold_addE rangeE lengthE add0r. Qed.
Lemma term_eval i i' : (i < n)%N -> (i' < n)%N -> (Poly (@lagrange_term O pts i)).[x i'] = if i == i' then y i * V else 0.
Proof.
  move=> Hi Hi'. rewrite termE !hornerM hornerC !horner_prod. case: eqP => [<-|/eqP Hn].
  - rewrite (@vander_split R n (fun j k => x j - x k) i Hi) -!mulrA. congr (_ * _). rewrite !mulrA. congr (_ * _ * _).
    + apply: eq_bigr => j _. by rewrite hornerXsubC.
    + apply: eq_bigr => j _. by rewrite hornerD hornerN hornerX hornerC.
    + apply: eq_bigr => j _. rewrite horner_prod. apply: eq_bigr => k _. by rewrite hornerC.
  - case: (ltngtP i i') => H; last by rewrite H eqxx in Hn.
    + rewrite (@big_cat_nat _ _ _ i') //=; last exact: ltnW. rewrite [X in _ * (_ * X)](@big_ltn _ _ _ i') //. by rewrite hornerXsubC subrr !(mul0r, mulr0).
    + rewrite [X in _ * X * _](@big_cat_nat _ _ _ i') //=; last exact: ltnW. rewrite [X in _ * (_ * X)](@big_ltn _ _ _ i') //.
      by rewrite hornerD hornerN hornerX hornerC subrr !(mul0r, mulr0).
Qed.
Lemma num_eval i : (i < n)%N -> (Poly (@lagrange_numerator O pts)).[x i] = y i * V.
Proof.
  move=> Hi. rewrite numE horner_sum big_mkord (bigD1 (Ordinal Hi)) //= term_eval // eqxx [X in _ + X]big1 ?addr0 // => j Hj.
  rewrite term_eval //. case: eqP => // E. case/eqP: Hj. exact: val_inj.
Qed.
Lemma size_prod_lin (I : Type) (l : seq I) (F : I -> {poly R}) : (forall j, (size (F j) <= 2)%N) -> (size (\prod_(j <- l) F j)%R <= (size l).+1)%N.
Proof.
  move=> H. elim: l => [|j l IH]; first by rewrite big_nil size_poly1. rewrite big_cons. apply: leq_trans (size_mul_leq _ _) _.
  rewrite -subn1 leq_subLR /=. apply: leq_trans (leq_add (H j) IH) _. by rewrite add2n add1n.
Qed.
Lemma size_num : (size (Poly (@lagrange_numerator O pts)) <= n)%N.
Proof.
  rewrite numE big_mkord. apply: leq_trans (size_sum _ _ _) _. apply/bigmax_leqP => i _. rewrite termE.
  have S1 : (size (\prod_(i.+1 <= j < n) ('X - (x j)%:P))%R <= (n - i.+1).+1)%N.
  { have := @size_prod_lin _ (index_iota i.+1 n) (fun j => 'X - (x j)%:P). rewrite size_iota. apply=> j. by rewrite size_XsubC. }
  have S2 : (size (\prod_(0 <= j < i) ((x j)%:P - 'X))%R <= (i - 0).+1)%N.
  { have := @size_prod_lin _ (index_iota 0 i) (fun j => (x j)%:P - 'X). rewrite size_iota. apply=> j. by rewrite -opprB size_opp size_XsubC. }
  have S3 : (size (\prod_(0 <= j < n) \prod_(j.+1 <= k < n | (nat_of_ord i != j) && (nat_of_ord i != k)) (x j - x k)%:P)%R <= 1)%N.
  { rewrite (eq_bigr (fun j => (\prod_(j.+1 <= k < n | (nat_of_ord i != j) && (nat_of_ord i != k)) (x j - x k))%:P)); last by move=> j _; rewrite rmorph_prod.
    rewrite -rmorph_prod. exact: size_polyC_leq1. }
  have S0 := size_polyC_leq1 (y i).
  set P0 := (_ %:P) in S0 *. set P1 := \prod_(_ <= j < n) _ in S1 *. set P2 := \prod_(_ <= j < nat_of_ord i) _ in S2 *. set P3 := \prod_(_ <= _ < _) _ in S3 *.
  have M0 := size_mul_leq P0 P1. have M1 := size_mul_leq (P0 * P1) P2. have M2 := size_mul_leq (P0 * P1 * P2) P3.
  move: (ltn_ord i) M0 M1 M2 S0 S1 S2 S3. move: (size P0) (size P1) (size P2) (size P3) (size (P0 * P1)%R) (size (P0 * P1 * P2)%R) (size (P0 * P1 * P2 * P3)%R).
  move=> a b c d e f g. lia.
Qed.
Definition distinct_xs := forall i j, (i < n)%N -> (j < n)%N -> x i = x j -> i = j.
Lemma V_neq0 : distinct_xs <-> V != 0.
Proof.
  split.
  - move=> H. rewrite prodf_seq_neq0. apply/allP => j. rewrite mem_index_iota => /andP[_ Hj]. apply/implyP => _. rewrite prodf_seq_neq0. apply/allP => k.
    rewrite mem_index_iota => /andP[H1 H2]. apply/implyP => _. rewrite subr_eq0. apply/eqP => E. have := H _ _ Hj H2 E. lia.
  - have K : forall i j, V != 0 -> (i < n)%N -> (j < n)%N -> x i = x j -> (i < j)%N -> False.
    { move=> i j H Hi Hj E L. move/negP: H. apply. rewrite (@vander_split R n (fun j k => x j - x k) i Hi).
      rewrite (@big_cat_nat _ _ _ j) //=; last exact: ltnW. rewrite [X in _ * X * _ * _](@big_ltn _ _ _ j) // E subrr !(mul0r, mulr0) //. }
    move=> H i j Hi Hj E. case: (ltngtP i j) => // L; case: (K _ _ H _ _ _ L) => //.
Qed.
Lemma xs_uniq : distinct_xs -> uniq [seq p.1 | p <- pts].
Proof.
  move=> H. apply/(uniqP 0) => i j. rewrite !inE size_map => Hi Hj. rewrite !(nth_map (0,0)) //. exact: H.
Qed.
Lemma roots_eq0 (f : {poly R}) : distinct_xs -> (size f <= n)%N -> (forall i, (i < n)%N -> f.[x i] = 0) -> f = 0.
Proof.
  move=> H Hs Hr. apply: (@roots_geq_poly_eq0 _ f [seq p.1 | p <- pts]).
  - apply/(all_nthP 0) => i. rewrite size_map => Hi. rewrite (nth_map (0,0)) //. apply/rootP. exact: Hr.
  - exact: xs_uniq.
  - by rewrite size_map.
Qed.
(* any interpolating polynomial can be reduced to one with at most n coefficients *)
Lemma reduce_interp (f : {poly R}) : (forall i, (i < n)%N -> f.[x i] = y i) -> exists g : {poly R}, (size g <= n)%N /\ forall i, (i < n)%N -> g.[x i] = y i.
Proof.
  move=> H. set m := \prod_(p <- pts) ('X - p.1%:P). have M : m \is monic by apply: rpred_prod => j _; exact: monicXsubC.
  exists (rmodp f m). split.
  - rewrite -ltnS. have -> : n.+1 = size m by rewrite /m size_prod_XsubC. by rewrite ltn_rmodp monic_neq0.
  - move=> i Hi. rewrite -(H i Hi) {2}(rdivp_eq M f) hornerD hornerM. have -> : m.[x i] = 0; last by rewrite mulr0 add0r.
    rewrite /m horner_prod (big_nth (0,0)) big_mkord (bigD1 (Ordinal Hi)) //=. by rewrite hornerXsubC subrr mul0r.
Qed.
Theorem lagrange_ok : if @interpolate_by_lagrange_basis O div pts is Some o then
    distinct_xs /\ match o with
      | Some p => (size (Poly p) <= n)%N /\ forall i, (i < n)%N -> (Poly p).[x i] = y i
      | None => forall f : {poly R}, exists2 i, (i < n)%N & f.[x i] <> y i end
  else ~ distinct_xs.
Proof.
  rewrite /interpolate_by_lagrange_basis. have := p_div_ok D (@lagrange_numerator O pts) (@lagrange_denominator O pts).
  case: p_div => [[p||]|] //; cbn [obind]; rewrite denE.
  - rewrite polyC_eq0 => -[HV E]. split; first exact/V_neq0. split.
    + have := size_num. rewrite E mulrC mul_polyC size_scale //.
    + move=> i Hi. apply: (mulIf HV). rewrite -num_eval // E hornerM hornerC //.
  - move/eqP. rewrite polyC_eq0 => /negPn HV Dx. case/negP: HV. exact/V_neq0.
  - rewrite polyC_eq0 => -[HV E]. have Dx : distinct_xs by exact/V_neq0. split=> // f.
    case: (boolP [exists i : 'I_n, f.[x i] != y i]) => [/existsP[i /eqP Hi]|]; first by exists i.
    rewrite negb_exists => /forallP H. case: (@reduce_interp f) => [i Hi|g [G1 G2]].
    { by have := H (Ordinal Hi); rewrite negbK => /eqP. }
    case: (E g). apply/eqP. rewrite -subr_eq0. apply/eqP. apply: roots_eq0 => //.
    + apply: leq_trans (size_add _ _) _. rewrite geq_max size_num /= size_opp. apply: leq_trans (size_mul_leq _ _) _.
      have := size_polyC_leq1 V. move: (size g) (size (V%:P)) G1 => a b. lia.
    + move=> i Hi. rewrite hornerD hornerN hornerM hornerC num_eval // G2 // subrr //.
Qed.
End L.
