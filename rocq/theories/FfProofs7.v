(* The quotient ring F[x]/(m) and the matrix of the q-th power map (FfModel: mod_ops, to_col_vector, from_col_vector). *)
From Coq Require Import List Arith NArith Bool.
From mathcomp Require Import all_ssreflect all_fingroup all_algebra all_solvable all_field separable.
From mathcomp Require Import zify.
From Coq Require Import Lia.
From Verif Require Import RingSpec RingModel RingProofs RingProofs2 RingProps FactoredSpec FactoredModel FactoredProofs PermModel MatModel MatSpec MatViewSpec MatProofs2 MatProofs8 LatModel PolyModel PolyProofs PolyProofs2 PolyProofs3 PolyProofs11 PolyProofs12 FacModel FacProofs FacProofs2 FfModel FfProofs FfProofs2.
Close Scope rs_scope.
Set Implicit Arguments.
Unset Strict Implicit.
Unset Printing Implicit Defensive.
Import GRing.Theory.
Local Open Scope ring_scope.

Section S.
Variable R : idomainType.
Notation O := (mc_ops R).
Notation P := (poly_ops O).
Variable div : div_op O.
Hypothesis D : idom_laws O div.
Hypothesis FD : forall x y : R, y != 0 -> exists q, div x y = DivOk q.
Implicit Types (f g a b : seq R) (A B : {poly R}).
Variable m : seq R.
Hypothesis m0 : Poly m != 0.
Notation M := (@mod_ops O div m).
Let PD := poly_idom D.
Let PE := poly_euclid D FD.
Lemma p_mono : norm_mono P (@p_norm O).
Proof.
  move=> a b c n k /p_equalP. rewrite pmulE !p_normE => E. case: eqP => // /eqP A0 [<-]. case: eqP => // /eqP C0 [<-].
  have B0 : Poly (b : seq R) != 0 by apply/eqP => Z; move: C0; rewrite E Z mulr0 eqxx.
  have := size_mul A0 B0. rewrite -E. move: A0 B0. rewrite -!size_poly_gt0. clear. move: (size (Poly (a : seq R))) (size (Poly (b : seq R))) (size (Poly (c : seq R))) => x y z. lia.
Qed.
Lemma pquoremrE : @pquoremr O div = pquorem div.
Proof. by []. Qed.
Lemma rdvdP a b : @rdvd P a b <-> Poly a %| Poly b.
Proof.
  split; first by case=> c /p_equalP; rewrite pmulE => ->; exact: dvdp_mulIl.
  case/(dvdE D FD) => A E. exists (polyseq A). apply/p_equalP. by rewrite pmulE E polyseqK mulrC.
Qed.
Lemma mod_facts : [/\ forall a b, @req M a b = true <-> Poly m %| Poly a - Poly b, ring_laws M &
  [/\ forall a b, Poly m %| Poly (@radd M a b : seq R) - (Poly a + Poly b), forall a b, Poly m %| Poly (@rmul M a b : seq R) - Poly a * Poly b & forall a, Poly (@rneg M a : seq R) = - Poly a]].
Proof.
  have Hm : @req P m (@r0 P) = false by apply/negP => /p_equalP Z; move: m0; rewrite Z eqxx.
  have [H1 [H2 [H3 [H4 _]]]] := C17_quotient_ring _ _ _ _ PD PE p_mono m Hm. split; [|exact: H2|split].
  - move=> a b. apply: (iff_trans (H1 a b)). rewrite (rdvdP m). cbn [radd rneg poly_ops]. by rewrite p_addE ?Poly_polyseq p_negE ?Poly_polyseq.
  - move=> a b. have := H3 a b. rewrite rdvdP. cbn [radd rneg poly_ops]. by rewrite p_addE ?Poly_polyseq p_negE p_addE ?Poly_polyseq.
  - move=> a b. have := H4 a b. rewrite rdvdP. cbn [radd rneg poly_ops rmul]. by rewrite p_addE ?Poly_polyseq p_negE ?Poly_polyseq p_mulE ?Poly_polyseq.
  - move=> a. cbn [rneg mod_ops quotient_ops poly_ops]. by rewrite p_negE ?Poly_polyseq.
Qed.
Lemma mod_powE a k : Poly m %| Poly (nat_pow (R := M) a k : seq R) - Poly a ^+ N.to_nat k.
Proof.
  have [H1 H2 [_ H4 _]] := mod_facts. have : @req M (nat_pow (R := M) a k) (@npow M a (N.to_nat k)) = true := nat_pow_ok M H2 a k. move/H1 => E.
  have E' : Poly m %| Poly (@npow M a (N.to_nat k) : seq R) - Poly a ^+ N.to_nat k.
  { elim: (N.to_nat k) {E} => [|n IH]; first by rewrite expr0 [npow _ _]/= Poly1 polyC1 subrr dvdp0. rewrite exprS -[npow _ _]/(@rmul M a (@npow M a n)).
    have := dvdp_add (H4 a (@npow M a n)) (dvdp_mull (Poly a) IH). by rewrite mulrBr addrA subrK. }
  have := dvdp_add E E'. by rewrite addrA subrK.
Qed.
Notation n := (size (Poly m)).-1.
Lemma degm : @p_degree O m = Some n.
Proof. rewrite p_degreeE. move: m0. rewrite -size_poly_gt0. by case: (size _). Qed.
Lemma mod_reduceE a : Poly m %| Poly a - Poly (@mod_reduce O div m a) /\ (size (Poly (@mod_reduce O div m a)) <= n)%N.
Proof.
  have Hm : @is_zero P m = false by apply/negP => /p_equalP Z; move: m0; rewrite Z eqxx.
  rewrite /mod_reduce /q_rem /rem Hm. cbn [negb]. rewrite pquoremrE. have := pquoremP D FD a m. case: (pquorem div a m) => [[u r]|] H; last by move: (m0); rewrite H eqxx.
  case: H => _ E S. rewrite E addrK dvdp_mulIr. split=> //. move: S (m0). rewrite -size_poly_gt0. clear. move: (size (Poly m)) (size (Poly r)) => x y. lia.
Qed.
Definition cv (A : {poly R}) : 'cV[R]_n := \col_i A`_i.
Lemma to_col_shows a : exists v, @to_col_vector O div m a = Some v /\ shows v (SMat n 1 (fun r _ => (Poly (@mod_reduce O div m a))`_r)).
Proof. rewrite /to_col_vector degm. cbn [obind]. apply: construct_shows => r k _ _. by rewrite p_coeffE. Qed.
Lemma to_colE a : exists v, @to_col_vector O div m a = Some v /\ represents v (cv (Poly (@mod_reduce O div m a))).
Proof. rewrite /to_col_vector degm. cbn [obind]. apply: construct_repr => i j. by rewrite mxE p_coeffE. Qed.
Lemma from_colE v (V : 'cV[R]_n) : represents v V -> exists a, @from_col_vector O m v = Some a /\ Poly a = \sum_(i < n) V i ord0 *: 'X^i.
Proof.
  move=> Hv. rewrite /from_col_vector degm. cbn [obind]. have [Er [Ec H]] := (repr_get v V).1 Hv. rewrite Er Ec !Nat.eqb_refl. cbn match.
  pose h i := if insub i is Some k then V k ord0 else 0.
  have hE (i : 'I_n) : h i = V i ord0 by rewrite /h insubT // => Hi; congr (V _ _); exact: val_inj.
  exists (List.map h (range 0 n)). split.
  - apply: mapM_range => i Hi. by rewrite -[i]/(nat_of_ord (Ordinal Hi)) hE -(H (Ordinal Hi) ord0).
  - rewrite -[RHS](_ : \poly_(i < n) h i = _); last by rewrite poly_def; apply: eq_bigr => i _; rewrite hE.
    rewrite mapE /range Nat.sub_0_r seqE. apply/polyP => i. rewrite coef_poly coef_Poly. case: ltnP => Hi; last by rewrite nth_default // size_map size_iota.
    by rewrite (nth_map 0%N) ?size_iota // nth_iota.
Qed.
Variable q : nat.
Hypothesis Hq1 : forall x : R, x ^+ q = x.
Hypothesis Hq2 : forall A B : {poly R}, (A + B) ^+ q = A ^+ q + B ^+ q.
Variable qN : N.
Hypothesis qE : N.to_nat qN = q.
Hypothesis q0 : (0 < q)%N.
Definition Cq (j : nat) : {poly R} := Poly (@mod_reduce O div m (nat_pow (R := M) (p_var_pow (R := O) j) qN)).
Lemma CqE j : Poly m %| Cq j - 'X^(j * q) /\ (size (Cq j) <= n)%N.
Proof.
  have [H1 H2] := mod_reduceE (nat_pow (R := M) (p_var_pow (R := O) j) qN). split=> //.
  have := mod_powE (p_var_pow (R := O) j) qN. rewrite p_var_powE qE -exprM => H3. rewrite -dvdpNr in H1. have := dvdp_add H1 H3. by rewrite opprB addrA subrK.
Qed.
Lemma frob_poly A : A ^+ q = \sum_(i < size A) A`_i *: 'X^(i * q).
Proof.
  have F0 : (0 : {poly R}) ^+ q = 0 by rewrite expr0n; case: (q) q0.
  rewrite -{1}[A]coefK poly_def (big_morph (fun B => B ^+ q) Hq2 F0). apply: eq_bigr => i _. by rewrite exprZn Hq1 -exprM.
Qed.
Lemma qmat_ok : exists cs K, [/\ mapM (fun k => @to_col_vector O div m (nat_pow (R := M) (p_var_pow (R := O) k) qN)) (range 0 n) = Some cs,
  join_cols n cs = Some K & represents K (\matrix_(i < n, j < n) (Cq j)`_i)].
Proof.
  pose S j := SMat n 1 (fun r _ => (Cq j)`_r).
  have [cs [E1 L1 N1]] : exists l, [/\ mapM (fun k => @to_col_vector O div m (nat_pow (R := M) (p_var_pow (R := O) k) qN)) (range 0 n) = Some l, True & List.Forall2 shows l (List.map S (range 0 n))].
  { elim: (range 0 n) => [|j l [cs [E _ IH]]]; first by exists [::]; split=> //; constructor.
    have [v [Ev Hv]] := to_col_shows (nat_pow (R := M) (p_var_pow (R := O) j) qN). exists (v :: cs). split=> //; last by constructor. cbn [mapM]. by rewrite Ev E. }
  have [|K [E2 H2]] := @join_cols_shows R 0 n cs _ N1. { apply/List.Forall_forall => s /List.in_map_iff [j [<- _]]. by []. }
  exists cs, K. split=> //. have Es : sum_cols (List.map S (range 0 n)) = n.
  { rewrite /sum_cols List.map_map /range Nat.sub_0_r. have G : forall (h : nat -> nat) k s, (forall x, h x = 1%N) -> list_sum (List.map h (List.seq s k)) = k by move=> h; elim=> // k IH s Hh; rewrite /= Hh -{2}(IH s.+1 Hh). exact: G. }
  case: H2 => H2 [H3 H4]. cbn [srows scols sentry] in H2, H3, H4. rewrite Es in H3, H4. split=> //. split=> // i j. rewrite H4 mxE.
  have -> : Nat.ltb i n by apply/Nat.ltb_lt/ltP. have -> : Nat.ltb j n by apply/Nat.ltb_lt/ltP. cbn [andb]. congr (Some (Ok _)).
  have G : forall k s (j : nat), (j < k)%N -> beside (0 : R) (List.map S (List.seq s k)) i j = (Cq (s + j)%N)`_i.
  { clear. elim=> [|k IH] s [|j] // Hj; cbn [List.seq List.map beside scols S]. by rewrite addn0. by rewrite [Nat.ltb _ _]/= [Nat.sub _ _]/= Nat.sub_0_r IH // addnS addSn. }
  by rewrite /range Nat.sub_0_r G.
Qed.
Lemma frob_step K a : represents K (\matrix_(i < n, j < n) (Cq j)`_i) ->
  exists v v' b, [/\ @to_col_vector O div m a = Some v, unwrap (MatModel.mul (R := O) K v) = Some v', @from_col_vector O m v' = Some b & Poly m %| Poly b - Poly a ^+ q].
Proof.
  move=> HQ. have [v [Ev Hv]] := to_colE a. have [v' [Ev' Hv']] := mul_repr HQ Hv. have [b [Eb Hb]] := from_colE Hv'. exists v, v', b. split=> //; first by rewrite Ev'.
  have [H1 H2] := mod_reduceE a. set A := Poly (@mod_reduce O div m a) in Hv Hv' Hb H1 H2.
  have EA : A ^+ q = \sum_(j < n) A`_j *: 'X^(j * q).
  { rewrite frob_poly (big_ord_widen _ (fun j => A`_j *: 'X^(j * q)) H2) big_mkcond. apply: eq_bigr => j _. case: ltnP => // Hj. by rewrite nth_default // scale0r. }
  have Eb' : Poly b = \sum_(j < n) A`_j *: Cq j.
  { rewrite Hb. apply/polyP => k. rewrite !coef_sum. have [Hk|Hk] := ltnP k n; last first.
    { rewrite big1 => [|j _]; last by rewrite coefZ coefXn (gtn_eqF (leq_trans (ltn_ord j) Hk)) mulr0.
      rewrite big1 // => j _. rewrite coefZ [(Cq j)`_k]nth_default ?mulr0 //. apply: leq_trans Hk. by have [] := CqE j. }
    rewrite (bigD1 (Ordinal Hk)) //= big1 ?addr0 => [|j Hj]; last by rewrite coefZ coefXn; move: Hj; rewrite -val_eqE /= eq_sym => /negPf ->; rewrite mulr0.
    rewrite coefZ coefXn eqxx mulr1 mxE. apply: eq_bigr => j _. by rewrite !mxE coefZ mulrC. }
  have H3 : Poly m %| Poly b - A ^+ q.
  { rewrite Eb' EA -sumrB. apply: (big_ind (fun B => Poly m %| B)) => [||j _]; [exact: dvdp0|exact: dvdp_add|]. rewrite -scalerBr. by rewrite -mul_polyC dvdp_mull //; have [] := CqE j. }
  have H4 : Poly m %| A ^+ q - Poly a ^+ q. { rewrite -dvdpNr opprB subrXX. exact: dvdp_mulr. }
  have := dvdp_add H3 H4. by rewrite addrA subrK.
Qed.
End S.
