(* The polynomial of mathcomp that a coefficient vector stands for, and what the ring operations do to it *)
From Coq Require Import List Arith NArith Bool.
From mathcomp Require Import all_ssreflect all_algebra.
From Coq Require Import Lia.
From Verif Require Import RingSpec RingModel RingProofs PermModel MatModel MatSpec MatProofs MatProofs2 PolyModel.
Close Scope rs_scope.
Set Implicit Arguments.
Unset Strict Implicit.
Unset Printing Implicit Defensive.
Import GRing.Theory.
Local Open Scope ring_scope.
Arguments p_equal : simpl never.
Arguments p_add : simpl never.
Arguments p_mul : simpl never.
Arguments p_neg : simpl never.
Arguments reduce_poly : simpl never.
Arguments p_degree : simpl never.
Arguments p_num_coeffs : simpl never.

Lemma nthE (A : Type) (d : A) l i : List.nth i l d = nth d l i.
Proof. by elim: l i => [|x l IH] [|i] //=. Qed.
Lemma revE (A : Type) (l : seq A) : List.rev l = rev l.
Proof. elim: l => [|x l IH] //=. by rewrite IH rev_cons -cats1. Qed.
Lemma seqE a n : List.seq a n = iota a n.
Proof. by elim: n a => [|n IH] a //=; rewrite IH. Qed.
Lemma lengthE (A : Type) (l : seq A) : length l = size l. Proof. by elim: l => //= x l ->. Qed.
Lemma mapE (A B : Type) (f : A -> B) l : List.map f l = map f l. Proof. by elim: l => //= x l ->. Qed.
Lemma repeatE (A : Type) (x : A) n : List.repeat x n = nseq n x. Proof. by elim: n => //= n ->. Qed.
Lemma forallbE (A : Type) (f : A -> bool) l : List.forallb f l = all f l. Proof. by elim: l => //= x l ->. Qed.
Lemma maxE a b : Nat.max a b = maxn a b.
Proof. by rewrite /maxn; case: ltnP => /ssrnat.leP H; lia. Qed.
Lemma fold_leftE (A B : Type) (f : B -> A -> B) l z : List.fold_left f l z = foldl f z l.
Proof. by elim: l z => //= x l IH z. Qed.

Section P.
Variable R : comRingType.
Notation O := (mc_ops R).
Implicit Types l m : seq R.

Lemma p_coeffE l i : @p_coeff O l i = (Poly l)`_i.
Proof. by rewrite /p_coeff nthE coef_Poly. Qed.
Lemma p_equalE l m : @p_equal O l m = (Poly l == Poly m).
Proof.
  rewrite /p_equal forallbE seqE !lengthE maxE /=. apply/allP/eqP => [H|E i _]; last by rewrite !p_coeffE E.
  apply/polyP => i. case: (ltnP i (maxn (size l) (size m))) => Hi.
  - have := H i. rewrite mem_iota add0n leq0n Hi /= => /(_ isT) /eqP. by rewrite !p_coeffE.
  - move: Hi. rewrite geq_max => /andP[H1 H2]. by rewrite !coef_Poly !nth_default.
Qed.
Lemma p_equalP l m : reflect (Poly l = Poly m) (@p_equal O l m).
Proof. rewrite p_equalE. exact: eqP. Qed.
Lemma strip_spec l : exists k, l = nseq k 0 ++ @strip O l /\ (if @strip O l is c :: _ then c != 0 else true).
Proof.
  elim: l => [|c l [k [IH1 IH2]]] /=; first by exists 0%N.
  case: (@eqP R c 0) => [->|/eqP Hc].
  - exists k.+1. by rewrite /= -IH1.
  - by exists 0%N.
Qed.
Lemma nth_cat_nseq l k i : (l ++ nseq k 0)`_i = l`_i :> R.
Proof.
  rewrite nth_cat. case: ltnP => // H. rewrite nth_nseq. rewrite (nth_default _ H). by case: ifP.
Qed.
Lemma Poly_cat0 l k : Poly (l ++ nseq k 0) = Poly l :> {poly R}.
Proof. apply/polyP => i. by rewrite !coef_Poly nth_cat_nseq. Qed.
Lemma rev_nseq (A : Type) n (x : A) : rev (nseq n x) = nseq n x.
Proof. elim: n => //= n IH; rewrite rev_cons IH -cats1 {IH}. by elim: n => //= n ->. Qed.
Lemma reduce_spec l : exists k, l = @reduce_poly O l ++ nseq k 0 /\ last 1 (@reduce_poly O l) != 0.
Proof.
  rewrite /reduce_poly !revE. case: (strip_spec (rev l)) => k [H1 H2]. exists k. split.
  - by rewrite -{1}(revK l) {1}H1 rev_cat rev_nseq.
  - move: H2. case: (strip _) => [|c s] H //=; first exact: oner_neq0. rewrite rev_cons -cats1 last_cat /=. exact: H.
Qed.
Lemma reduceE l : @reduce_poly O l = Poly l.
Proof.
  case: (reduce_spec l) => k [H1 H2]. rewrite {2}H1 Poly_cat0. symmetry. exact: (@PolyK _ 1).
Qed.
Lemma Poly_polyseq (p : {poly R}) : Poly p = p. Proof. exact: polyseqK. Qed.
Lemma p_addE l m : @p_add O l m = Poly l + Poly m.
Proof.
  rewrite /p_add reduceE. congr polyseq. apply/polyP => i. rewrite coefD !coef_Poly mapE seqE !lengthE maxE.
  case: (ltnP i (maxn (size l) (size m))) => Hi.
  - rewrite (nth_map 0%N) ?size_iota // nth_iota // add0n /= !p_coeffE !coef_Poly //.
  - rewrite nth_default ?size_map ?size_iota //. move: Hi. rewrite geq_max => /andP[H1 H2]. by rewrite !nth_default // addr0.
Qed.
Lemma p_negE l : Poly (@p_neg O l) = - Poly l.
Proof.
  rewrite /p_neg mapE. apply/polyP => i. rewrite coefN !coef_Poly. case: (ltnP i (size l)) => Hi.
  - by rewrite (nth_map 0).
  - by rewrite !nth_default ?size_map // oppr0.
Qed.
Lemma size_add_at l k x : size (@add_at O l k x) = size l.
Proof. by elim: l k => [|c l IH] [|k] //=; rewrite IH. Qed.
Lemma nth_add_at l k (x : R) i : (k < size l)%N -> (@add_at O l k x)`_i = l`_i + (if i == k then x else 0).
Proof.
  elim: l k i => [|c l IH] [|k] [|i] //=; rewrite ?addr0 // => H. by rewrite IH.
Qed.
Lemma add_atE l k x : (k < size l)%N -> Poly (@add_at O l k x) = Poly l + x%:P * 'X^k.
Proof.
  move=> H. apply/polyP => i. rewrite coefD !coef_Poly nth_add_at // coefCM coefXn. by case: eqP => _; rewrite ?mulr1 ?mulr0.
Qed.
Lemma mul_row (l : seq R) i (a : R) (f : nat -> R) s k : (i + (s + k) <= size l)%N ->
  let r := foldl (fun cs j => @add_at O cs (i + j)%coq_nat (a * f j)) l (iota s k) in
  size r = size l /\ Poly r = Poly l + a%:P * 'X^i * \sum_(s <= j < s + k) (f j)%:P * 'X^j.
Proof.
  elim: k s l => [|k IH] s l H /=; first by rewrite addn0 big_geq // mulr0 addr0.
  case: (IH s.+1 (@add_at O l (i + s)%coq_nat (a * f s))) => [|H1 H2]; first by rewrite size_add_at addSnnS.
  rewrite H1 size_add_at. split=> //. rewrite {}H2 add_atE; last by apply: leq_trans H; rewrite addnA addnS ltnS leq_addr.
  rewrite [in RHS]big_ltn; last by rewrite addnS ltnS leq_addr.
  rewrite addSnnS -addrA. congr (_ + _). rewrite mulrDr. congr (_ + _).
  rewrite polyCM plusE exprD !mulrA. congr (_ * _). by rewrite mulrAC.
Qed.
Lemma Poly_sum l n : (size l <= n)%N -> Poly l = \sum_(0 <= j < n) (l`_j)%:P * 'X^j.
Proof.
  move=> H. apply/polyP => i. rewrite coef_Poly coef_sum. 
  transitivity (\sum_(0 <= j < n) (if j == i then l`_i else 0)).
  - rewrite big_mkord -big_mkcond. case: (ltnP i n) => Hi.
    + by rewrite (big_pred1 (Ordinal Hi)).
    + rewrite big_pred0 ?nth_default // ?(leq_trans H) // => j. apply/eqP => E. by move: (ltn_ord j); rewrite E ltnNge Hi.
  - apply: eq_bigr => j _. rewrite coefCM coefXn eq_sym. by case: eqP => [->|_]; rewrite ?mulr1 ?mulr0.
Qed.
Lemma p_mulE l m : @p_mul O l m = Poly l * Poly m.
Proof.
  rewrite /p_mul reduceE. congr polyseq. rewrite !seqE !lengthE repeatE fold_leftE plusE.
  set F := foldl _ _ _.
  have K : forall k s (c : seq R), (s + k <= size l)%N -> size c = (size l + size m)%N ->
     let r := foldl (fun cs i => List.fold_left (fun cs j => @add_at O cs (i + j)%coq_nat (List.nth i l 0 * List.nth j m 0)) (iota 0 (size m)) cs) c (iota s k) in
     size r = size c /\ Poly r = Poly c + (\sum_(s <= i < s + k) (l`_i)%:P * 'X^i) * Poly m.
  { elim=> [|k IH] s c H1 H2 /=; first by rewrite addn0 big_geq // mul0r addr0.
    have G := @mul_row c s (List.nth s l 0) (fun j => List.nth j m 0) 0 (size m).
    rewrite fold_leftE. case: G => [|G1 G2]; first by rewrite H2 leq_add // (leq_trans _ H1) // leq_addr.
    case: (IH s.+1 (foldl (fun cs j => @add_at O cs (s + j)%coq_nat (List.nth s l 0 * List.nth j m 0)) c (iota 0 (size m)))) => [||I1 I2].
    - by rewrite addSnnS.
    - by rewrite G1.
    - rewrite I1 G1. split=> //. rewrite I2 G2 [in RHS]big_ltn; last by rewrite addnS ltnS leq_addr.
      rewrite addSnnS -addrA. congr (_ + _). rewrite [in RHS]mulrDl nthE add0n. congr (_ + _).
      congr (_ * _). rewrite (@Poly_sum m (size m)) //. by apply: eq_bigr => j _; rewrite nthE. }
  case: (K (size l) 0%N (nseq (size l + size m) 0)); rewrite ?size_nseq // => _. rewrite {}/F => ->.
  rewrite add0n -(@Poly_sum l (size l)) // -[nseq _ _]cat0s Poly_cat0 /= add0r //.
Qed.
Lemma p_is_zeroE l : @p_is_zero O l = (Poly l == 0).
Proof. by rewrite /p_is_zero p_equalE. Qed.
Lemma degree_loopE l k : @degree_loop O l k = (if size (Poly (take k l)) is n.+1 then Some n else None).
Proof.
  elim: k => [|k IH]; first by rewrite take0 /= size_poly0.
  cbn [degree_loop]. have -> : is_zero (@p_coeff O l k) = (l`_k == 0) by rewrite p_coeffE coef_Poly.
  case: (ltnP k (size l)) => Hk; last first.
  - rewrite nth_default // eqxx /= IH !take_oversize //. exact: leqW.
  - case: (@eqP R l`_k 0) => [E|/eqP E] /=.
    + rewrite IH (take_nth 0 Hk) E -cats1 -[[:: 0]]/(nseq 1 0) Poly_cat0 //.
    + rewrite (take_nth 0 Hk) -cats1 -[size _]/(size (polyseq _)) (@PolyK _ 0) ?size_cat ?size_take ?Hk ?addn1 //.
      by rewrite last_cat.
Qed.
Lemma p_degreeE l : @p_degree O l = (if size (Poly l) is n.+1 then Some n else None).
Proof. by rewrite /p_degree degree_loopE lengthE take_size. Qed.
Lemma p_num_coeffsE l : @p_num_coeffs O l = size (Poly l).
Proof. rewrite /p_num_coeffs p_degreeE. case: (size _) => //= n. by rewrite plusE addn1. Qed.
Lemma nth_errorE (A : Type) (l : seq A) n d : (n < size l)%N -> List.nth_error l n = Some (nth d l n).
Proof. by elim: l n => [|x l IH] [|n] //= H; apply: IH. Qed.
Lemma p_leading_coeffE l : @p_leading_coeff O l = (if Poly l == 0 then None else Some (lead_coef (Poly l))).
Proof.
  rewrite /p_leading_coeff p_degreeE -size_poly_eq0. case E: (size _) => [|n] //=.
  rewrite (@nth_errorE R l n 0); last by apply: leq_trans (size_Poly l); rewrite E.
  by rewrite /lead_coef E coef_Poly.
Qed.
Lemma p_evaluateE l x : @p_evaluate O l x = (Poly l).[x].
Proof.
  rewrite /p_evaluate revE fold_leftE foldl_rev horner_Poly. elim: l => //= c l ->. exact: erefl.
Qed.
Lemma p_mul_var_powE l n : Poly (@p_mul_var_pow O l n) = Poly l * 'X^n.
Proof.
  rewrite /p_mul_var_pow repeatE. apply/polyP => i. rewrite coefMXn !coef_Poly -[List.app _ _]/(nseq n 0 ++ l) nth_cat size_nseq nth_nseq. by case: ltnP => H; rewrite ?H /=.
Qed.
Lemma p_mul_scalarE l x : @p_mul_scalar O l x = x *: Poly l.
Proof.
  rewrite /p_mul_scalar reduceE. congr polyseq. apply/polyP => i. rewrite coefZ !coef_Poly mapE.
  case: (ltnP i (size l)) => Hi.
  - by rewrite (nth_map 0) // mulrC.
  - by rewrite !nth_default ?size_map // mulr0.
Qed.
Lemma p_reversedE l : Poly (@p_reversed O l) = \poly_(i < size l) l`_((size l).-1 - i).
Proof.
  rewrite /p_reversed revE. apply/polyP => i. rewrite coef_Poly coef_poly. case: ltnP => H.
  - by rewrite nth_rev // -subn1 -subnDA add1n.
  - by rewrite nth_default // size_rev.
Qed.
Lemma p_varE : Poly (@p_var O) = 'X.
Proof. apply/polyP => i. rewrite coef_Poly coefX. by case: i => [|[|i]] //=; rewrite nth_nil. Qed.
Lemma p_cvpE (x : R) n : Poly (@p_constant_var_pow O x n) = x%:P * 'X^n.
Proof.
  apply/polyP => i. rewrite coefCM coefXn coef_Poly /p_constant_var_pow mapE seqE plusE addn1.
  case: (ltnP i n.+1) => Hi.
  - rewrite (nth_map 0%N) ?size_iota // nth_iota // add0n ltb_nat. move: Hi. rewrite ltnS leq_eqVlt. case: eqP => [->|H /= ->] /=; by rewrite ?ltnn ?mulr1 ?mulr0.
  - rewrite nth_default ?size_map ?size_iota //. case: eqP Hi => [->|_ _]; by rewrite ?ltnn ?mulr0.
Qed.
Lemma p_var_powE n : Poly (@p_var_pow O n) = 'X^n.
Proof. by rewrite -[X in Poly X]/(@p_constant_var_pow O 1 n) p_cvpE mul1r. Qed.
Lemma p_as_constantE l : @p_as_constant O l = (if (size (Poly l) <= 1)%N then Some (Poly l)`_0 else None).
Proof.
  rewrite /p_as_constant p_num_coeffsE !eqb_nat. case E: (size _) => [|[|n]] //=.
  - by rewrite nth_default // E.
  - rewrite coef_Poly. move: (size_Poly l). rewrite E. by case: l E.
Qed.
Lemma p_is_monicE l : @p_is_monic O l = (Poly l \is monic).
Proof.
  rewrite /p_is_monic p_leading_coeffE monicE. case: eqP => [->|_] /=; last exact: erefl.
  by rewrite lead_coef0 eq_sym oner_eq0.
Qed.
Lemma p_composeE l m : @p_compose O l m = (Poly l \Po Poly m).
Proof.
  rewrite /p_compose /p_evaluate revE fold_leftE foldl_rev mapE /comp_poly.
  elim: l => [|c l IH] /=; first by rewrite map_poly0 horner0 polyseq0.
  rewrite IH cons_poly_def rmorphD rmorphM /= map_polyX map_polyC hornerMXaddC.
  rewrite p_addE p_mulE !Poly_polyseq. congr (polyseq (_ + _)). by rewrite /= cons_poly_def mul0r add0r.
Qed.
(* ------------------------------------------------------------------ derivative *)
Lemma size_set_at l k (x : R) : size (@set_at O l k x) = size l.
Proof. by elim: l k => [|c l IH] [|k] //=; rewrite IH. Qed.
Lemma nth_set_at l k (x : R) i : (k < size l)%N -> (@set_at O l k x)`_i = if i == k then x else l`_i.
Proof. elim: l k i => [|c l IH] [|k] [|i] //= H. by rewrite IH. Qed.
Lemma removelastE (A : Type) (l : seq A) : List.removelast l = take (size l).-1 l.
Proof. elim: l => [|x [|y l] IH] //. by rewrite -[List.removelast _]/(x :: List.removelast (y :: l)) IH. Qed.
Lemma mc_ring : ring_laws O.
Proof.
  split; rewrite /=.
  all: try by move=> *; repeat match goal with H : (_ == _) = true |- _ => move/eqP: H => H end; apply/eqP; subst.
  all: try by (move=> *; apply/eqP; rewrite ?add0r ?mul1r ?addrA ?mulrA ?mulrDl ?subrr).
  all: try by (move=> a b; apply/eqP; rewrite ?[a + b]addrC ?[a * b]mulrC).
Qed.
Lemma nmulE n (x : R) : @nmul O n x = x *+ n.
Proof. elim: n => [|n IH] //=. by rewrite mulrS IH. Qed.
Lemma npowE n (x : R) : @npow O x n = x ^+ n.
Proof. elim: n => [|n IH] //=. by rewrite exprS IH. Qed.
Lemma nat_powE (x : R) n : @nat_pow O x n = x ^+ (N.to_nat n).
Proof. have /= /eqP -> := @nat_pow_ok O mc_ring x n. by rewrite npowE. Qed.
Lemma from_natE n : @from_nat O n = (N.to_nat n)%:R.
Proof. have /= /eqP -> := @from_nat_ok O mc_ring n. by rewrite nmulE. Qed.
Lemma p_derivativeE l : Poly (@p_derivative O l) = (Poly l)^`().
Proof.
  rewrite /p_derivative reduceE p_num_coeffsE Poly_polyseq ltb_nat lt0n size_poly_eq0. case: eqP => [->|/eqP P0] /=; first by rewrite deriv0 polyseq0.
  set p := Poly l in P0 *. rewrite removelastE seqE fold_leftE minusE subn1.
  have K : forall k, (k < size p)%N ->
     let r := foldl (fun q i => @set_at O q i (List.nth (i + 1)%coq_nat q 0 * @from_nat O (N.of_nat (i + 1)%coq_nat))) p (iota 0 k) in
     size r = size p /\ forall i, r`_i = if (i < k)%N then p`_i.+1 *+ i.+1 else p`_i.
  { elim=> [|k IH] H; first by []. case: (IH (ltnW H)) => I1 I2. rewrite -[in iota _ _]addn1 iotaD foldl_cat /= size_set_at I1 add0n. split=> // i.
    rewrite nth_set_at ?I1 ?(ltnW H) // nthE plusE !addn1 ltnS leq_eqVlt I2.
    case: eqP => [->|Hi] /=; last by rewrite I2.
    rewrite [(k.+1 < k)%N]ltnNge leqnSn from_natE. have -> : N.to_nat (N.of_nat k.+1) = k.+1 by exact: Nnat.Nat2N.id. rewrite mulr_natr. by []. }
  case: (K (size p).-1); first by rewrite prednK // lt0n size_poly_eq0.
  set r := foldl _ _ _ => S1 S2. apply/polyP => i. rewrite coef_Poly coef_deriv.
  case: (ltnP i (size p).-1) => Hi.
  - by rewrite nth_take ?S1 // S2 Hi.
  - rewrite nth_default; last by rewrite size_take S1; case: ltnP => // H; exact: leq_trans Hi.
    rewrite (@nth_default _ 0 p) ?mul0rn //. by move: Hi; case: (size p).
Qed.
End P.
