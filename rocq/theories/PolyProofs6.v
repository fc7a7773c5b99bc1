(* Determinant polynomials: the determinants behind subresultants.  dp N j l is the determinant of the N x N matrix whose row i lists the
   coefficients of the i-th polynomial of l at the degrees N+j-1, ..., j+1, and the polynomial itself in the last column. *)
From mathcomp Require Import all_ssreflect all_algebra.
From mathcomp Require Import zify.
From Coq Require Import Lia.
Set Implicit Arguments.
Unset Strict Implicit.
Unset Printing Implicit Defensive.
Import GRing.Theory.
Local Open Scope ring_scope.

Section DP.
Variable R : comRingType.
Implicit Types (P Q A B x y : {poly R}) (l : seq {poly R}).
Definition ent (N j : nat) (p : {poly R}) (c : nat) : {poly R} := if c.+1 == N then p else (p`_(N + j - c.+1))%:P.
Definition dp (N j : nat) l : {poly R} := \det (\matrix_(i < N, c < N) ent N j (nth 0 l i) c).

Lemma ent_lin N j (a b : R) x y c : ent N j (a *: x + b *: y) c = a%:P * ent N j x c + b%:P * ent N j y c.
Proof. rewrite /ent. case: eqP => _; first by rewrite !mul_polyC. by rewrite coefD !coefZ polyCD !polyCM. Qed.
Lemma nth_mid l1 x l2 : nth 0 (l1 ++ x :: l2) (size l1) = x.
Proof. by rewrite nth_cat ltnn subnn. Qed.
Lemma nth_out l1 x y l2 i : i != size l1 -> nth 0 (l1 ++ x :: l2) i = nth 0 (l1 ++ y :: l2) i.
Proof.
  move=> H. rewrite !nth_cat. case: ltnP => // H'. have : (0 < i - size l1)%N by rewrite subn_gt0 ltn_neqAle eq_sym H. by case: (i - size l1)%N.
Qed.
Lemma dp_lin N j l1 l2 (a b : R) x y : (size l1 < N)%N ->
  dp N j (l1 ++ (a *: x + b *: y) :: l2) = a%:P * dp N j (l1 ++ x :: l2) + b%:P * dp N j (l1 ++ y :: l2).
Proof.
  move=> H. apply: (@determinant_multilinear _ _ _ _ _ (Ordinal H)).
  - apply/rowP => c. by rewrite !mxE /= !nth_mid ent_lin.
  - apply/matrixP => i c. rewrite !mxE. congr (ent _ _ _ _). apply: nth_out. have := neq_lift (Ordinal H) i. by rewrite eq_sym -(inj_eq val_inj).
  - apply/matrixP => i c. rewrite !mxE. congr (ent _ _ _ _). apply: nth_out. have := neq_lift (Ordinal H) i. by rewrite eq_sym -(inj_eq val_inj).
Qed.
Lemma dp_alt N j l i i' : (i < N)%N -> (i' < N)%N -> i != i' -> nth 0 l i = nth 0 l i' -> dp N j l = 0.
Proof.
  move=> Hi Hi' Hn E. apply: (@determinant_alternate _ _ _ (Ordinal Hi) (Ordinal Hi')).
  - by rewrite -(inj_eq val_inj).
  - move=> c. by rewrite !mxE /= E.
Qed.
Lemma dp_scale N j l1 l2 (a : R) x : (size l1 < N)%N -> dp N j (l1 ++ (a *: x) :: l2) = a%:P * dp N j (l1 ++ x :: l2).
Proof. move=> H. have -> : a *: x = a *: x + 0 *: x by rewrite scale0r addr0. by rewrite dp_lin // mul0r addr0. Qed.
Lemma dp_add N j l1 l2 x y : (size l1 < N)%N -> dp N j (l1 ++ (x + y) :: l2) = dp N j (l1 ++ x :: l2) + dp N j (l1 ++ y :: l2).
Proof. move=> H. have := @dp_lin N j l1 l2 1 1 x y H. by rewrite !scale1r !mul1r. Qed.
Lemma dp_zero N j l1 l2 : (size l1 < N)%N -> dp N j (l1 ++ 0 :: l2) = 0.
Proof. move=> H. by rewrite -[X in l1 ++ X :: _](scale0r (0 : {poly R})) dp_scale // polyC0 mul0r. Qed.
Lemma dp_swap N j l1 l2 x y : (size l1 + 1 < N)%N -> dp N j (l1 ++ x :: y :: l2) = - dp N j (l1 ++ y :: x :: l2).
Proof.
  move=> H. have H1 : (size l1 < N)%N by lia. have H2 : (size (rcons l1 (x + y)%R) < N)%N by rewrite size_rcons -addn1.
  have alt z : dp N j (l1 ++ z :: z :: l2) = 0.
  { apply: (@dp_alt N j _ (size l1) (size l1).+1) => //; try lia. rewrite nth_mid nth_cat ltnNge leqnSn /= subSnn //. }
  have := alt (x + y). rewrite -cat_rcons dp_add // !cat_rcons dp_add // dp_add // !alt add0r addr0 => /eqP.
  by rewrite addrC addr_eq0 => /eqP.
Qed.
Lemma dp_move N j l1 l2 l3 x : (size l1 + size l2 < N)%N -> dp N j (l1 ++ x :: l2 ++ l3) = (-1) ^+ (size l2) * dp N j (l1 ++ l2 ++ x :: l3).
Proof.
  elim: l2 l1 => [|y l2 IH] l1 /= H; first by rewrite expr0 mul1r. rewrite dp_swap; last lia.
  rewrite -cat_rcons IH ?size_rcons; last lia. by rewrite cat_rcons exprS mulN1r mulNr.
Qed.
Lemma dp_block N j l1 l2 l3 : size (l1 ++ l2 ++ l3) = N -> dp N j (l1 ++ l2 ++ l3) = (-1) ^+ (size l2 * size l3) * dp N j (l1 ++ l3 ++ l2).
Proof.
  elim: l2 l1 => [|x l2 IH] l1 H; first by rewrite mul0n expr0 mul1r cats0. rewrite cat_cons -cat_rcons IH; last by rewrite -H !size_cat size_rcons /=; lia.
  rewrite cat_rcons dp_move; last by rewrite -H !size_cat /=; lia. by rewrite mulrA -exprD /= mulSn addnC.
Qed.
(* shifts: X^(k-1) P, ..., X P, P *)
Fixpoint sh (k : nat) P : seq {poly R} := if k is k'.+1 then ('X^k' * P) :: sh k' P else [::].
Lemma size_sh k P : size (sh k P) = k. Proof. by elim: k => //= k ->. Qed.
Lemma nth_sh k P i : (i < k)%N -> nth 0 (sh k P) i = 'X^(k - i.+1) * P.
Proof. elim: k i => // k IH [|i] H //=; first by rewrite subn1. rewrite IH //. Qed.
Lemma mem_sh k P y : y \in sh k P -> exists2 i, (i < k)%N & y = 'X^i * P.
Proof.
  elim: k => //= k IH. rewrite inE => /orP[/eqP ->|/IH [i H ->]]; first by exists k. exists i => //. lia.
Qed.
Lemma dp_addB N j l1 l2 x (h : {poly R}) B t : (size h <= t)%N -> (size l1 + size l2 + t < N)%N ->
  dp N j (l1 ++ (x + h * B) :: l2 ++ sh t B) = dp N j (l1 ++ x :: l2 ++ sh t B).
Proof.
  move=> Hh HN. have K : forall k, (k <= t)%N -> dp N j (l1 ++ (x + (\sum_(i < k) h`_i *: 'X^i) * B) :: l2 ++ sh t B) = dp N j (l1 ++ x :: l2 ++ sh t B).
  { elim=> [|k IH] Hk; first by rewrite big_ord0 mul0r addr0. rewrite big_ord_recr /= mulrDl addrA dp_add; last lia. rewrite IH; last lia.
    rewrite -scalerAl dp_scale; last lia. rewrite [X in _ + _ * X](@dp_alt N j _ (size l1) (size l1 + (size l2 + (t - k.+1)).+1)%N); try lia; first by rewrite mulr0 addr0.
    rewrite nth_mid nth_cat ltnNge leq_addr /= addKn /= nth_cat ltnNge leq_addr /= addKn nth_sh; last lia. congr ('X^_ * _). lia. }
  have Eh : h = \sum_(i < t) h`_i *: 'X^i by rewrite -[LHS](@coefK _ h) poly_def (big_ord_widen _ (fun i => h`_i *: 'X^i) Hh) big_mkcond /=; apply: eq_bigr => i _; case: ltnP => // H; rewrite nth_default // scale0r.
  rewrite {1}Eh. exact: K.
Qed.
Lemma dp_reduce N j l1 k t Q P B : ((size Q).-1 + k <= t)%N -> (size l1 + k + t = N)%N ->
  dp N j (l1 ++ sh k (Q * B + P) ++ sh t B) = dp N j (l1 ++ sh k P ++ sh t B).
Proof.
  elim: k l1 => [|k IH] l1 H1 H2 //=. rewrite -cat_rcons IH ?size_rcons //; try lia. rewrite cat_rcons mulrDr addrC mulrA dp_addB //.
  - case: (@eqP _ Q 0) => [->|/eqP HQ]; first by rewrite mulr0 size_poly0. rewrite (leq_trans (size_mul_leq _ _)) // size_polyXn. move: HQ; rewrite -size_poly_gt0. lia.
  - rewrite size_sh. lia.
Qed.
Lemma dp_scale_sh N j l1 l2 k (c : R) P : (size l1 + k <= N)%N -> dp N j (l1 ++ sh k (c *: P) ++ l2) = (c ^+ k)%:P * dp N j (l1 ++ sh k P ++ l2).
Proof.
  elim: k l1 => [|k IH] l1 H /=; first by rewrite expr0 mul1r. rewrite -scalerAr -cat_rcons IH ?size_rcons; last lia.
  rewrite cat_rcons dp_scale; last lia. by rewrite mulrA exprSr polyCM.
Qed.
Lemma dp_expand N j x l : (0 < N)%N -> (forall i, (i < N)%N -> (nth 0 l i)`_(N + j) = 0) -> dp N.+1 j (x :: l) = (x`_(N + j))%:P * dp N j l.
Proof.
  move=> HN H. rewrite /dp (expand_det_col _ ord0) big_ord_recl big1 ?addr0.
  - rewrite !mxE /= /ent /=. have -> : (1%N == N.+1) = false by lia. rewrite subn1 /=. congr (_ * _). rewrite /cofactor expr0 mul1r. congr (\det _).
    apply/matrixP => i c. by rewrite !mxE /= /ent eqSS addSn subSS.
  - move=> i _. rewrite !mxE /= /ent. have -> : (1%N == N.+1) = false by lia. rewrite subn1 /= H // mul0r //.
Qed.
Lemma dp1 j x : dp 1 j [:: x] = x. Proof. by rewrite /dp det_mx11 mxE. Qed.
End DP.
