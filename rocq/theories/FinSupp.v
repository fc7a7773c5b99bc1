(* Finitely supported functions as sorted association lists. *)
From mathcomp Require Import all_ssreflect.
Set Implicit Arguments. Unset Strict Implicit. Unset Printing Implicit Defensive.

Section FinSupp.
Variables (K : eqType) (le : rel K).
Hypothesis le_tot : total le.
Hypothesis le_tr : transitive le.
Hypothesis le_anti : antisymmetric le.
Variables (V : eqType) (idx : V) (op : Monoid.com_law idx).
Implicit Types (l : seq (K * V)) (k : K).
Definition coef l k : V := \big[op/idx]_(t <- l | t.1 == k) t.2.
Definition keys l : seq K := [seq k <- sort le (undup [seq t.1 | t <- l]) | coef l k != idx].
Definition nf l : seq (K * V) := [seq (k, coef l k) | k <- keys l].
Definition canon l : bool := [&& uniq [seq t.1 | t <- l], sorted le [seq t.1 | t <- l] & all (fun t => t.2 != idx) l].
Lemma coef_nil k : coef [::] k = idx. Proof. by rewrite /coef big_nil. Qed.
Lemma coef_cons t l k : coef (t :: l) k = if t.1 == k then op t.2 (coef l k) else coef l k.
Proof. by rewrite /coef big_cons. Qed.
Lemma coef_cat l l' k : coef (l ++ l') k = op (coef l k) (coef l' k).
Proof. by rewrite /coef big_cat. Qed.
Lemma coef_perm l l' k : perm_eq l l' -> coef l k = coef l' k.
Proof. move=> H. exact: perm_big. Qed.
Lemma coef_out l k : k \notin [seq t.1 | t <- l] -> coef l k = idx.
Proof.
  elim: l => [|t l IH]; first by rewrite coef_nil. rewrite /= inE negb_or coef_cons => /andP[H1 H2]. rewrite eq_sym (negbTE H1). exact: IH.
Qed.
Lemma keys_uniq l : uniq (keys l). Proof. by rewrite filter_uniq // sort_uniq undup_uniq. Qed.
Lemma keys_sorted l : sorted le (keys l). Proof. apply: sorted_filter => //. exact: sort_sorted. Qed.
Lemma mem_keys l k : (k \in keys l) = (coef l k != idx).
Proof.
  rewrite mem_filter mem_sort mem_undup. case: eqP => //= H. case Hk: (k \in _) => //. case: H. apply: coef_out. by rewrite Hk.
Qed.
Lemma coef_uniq l t : uniq [seq s.1 | s <- l] -> t \in l -> coef l t.1 = t.2.
Proof.
  elim: l => //= s l IH /andP[H1 H2]. rewrite inE coef_cons => /orP[/eqP ->|Ht]; first by rewrite eqxx coef_out // Monoid.mulm1.
  case: eqP => [E|_]; last exact: IH. by move: H1; rewrite E; move/negP; case; apply: map_f.
Qed.
Lemma nf_keys l : [seq t.1 | t <- nf l] = keys l.
Proof. by rewrite -map_comp /comp /= map_id. Qed.
Lemma coef_nf l k : coef (nf l) k = coef l k.
Proof.
  case H: (k \in keys l).
  - have Ht : (k, coef l k) \in nf l by apply: map_f. have := coef_uniq (l := nf l) _ Ht. rewrite nf_keys => -> //. exact: keys_uniq.
  - rewrite coef_out ?nf_keys ?H //. move: H. rewrite mem_keys. by case: eqP.
Qed.
Lemma nf_canon l : canon (nf l).
Proof.
  rewrite /canon nf_keys keys_uniq keys_sorted /=. apply/allP => t /mapP[k Hk ->] /=. by rewrite -mem_keys.
Qed.
Lemma nf_ext l l' : coef l =1 coef l' -> nf l = nf l'.
Proof.
  move=> E. have EK : keys l = keys l'.
  { apply: (sorted_eq le_tr le_anti (keys_sorted _) (keys_sorted _)). apply: uniq_perm; try exact: keys_uniq. move=> k. by rewrite !mem_keys E. }
  rewrite /nf EK. apply: eq_map => k. by rewrite E.
Qed.
Lemma canon_nf l : canon l -> nf l = l.
Proof.
  move=> /and3P[H1 H2 H3]. have EK : keys l = [seq t.1 | t <- l].
  { apply: (sorted_eq le_tr le_anti (keys_sorted _) H2). apply: uniq_perm => //; first exact: keys_uniq. move=> k. rewrite mem_keys.
    apply/idP/idP; first by apply: contraR => /coef_out ->. move=> /mapP[t Ht ->]. rewrite (coef_uniq H1 Ht). exact: (allP H3). }
  rewrite /nf EK -map_comp -[RHS]map_id. apply/eq_in_map => t Ht /=. by rewrite (coef_uniq H1 Ht) -surjective_pairing.
Qed.
Lemma canonE l : canon l = (nf l == l).
Proof. apply/idP/eqP => [|<-]; [exact: canon_nf|exact: nf_canon]. Qed.
Lemma canon_ext l l' : canon l -> canon l' -> coef l =1 coef l' -> l = l'.
Proof. move=> /canon_nf {2}<- /canon_nf {2}<-. exact: nf_ext. Qed.
Lemma nf_perm l l' : perm_eq l l' -> nf l = nf l'.
Proof. move=> H. apply: nf_ext => k. exact: coef_perm. Qed.
Lemma nf_canon_perm l l' : canon l' -> perm_eq l l' -> nf l = l'.
Proof. move=> H1 H2. by rewrite (nf_perm H2) canon_nf. Qed.
(* sums over the terms that are additive in the value only depend on the coefficients *)
Lemma lin_nf (A : Type) (z : A) (pl : Monoid.com_law z) (F : K -> V -> A) l : (forall k, F k idx = z) -> (forall k x y, F k (op x y) = pl (F k x) (F k y)) ->
  \big[pl/z]_(t <- nf l) F t.1 t.2 = \big[pl/z]_(t <- l) F t.1 t.2.
Proof.
  move=> F0 Fa. have L : \big[pl/z]_(t <- nf l) F t.1 t.2 = \big[pl/z]_(k <- undup [seq t.1 | t <- l]) F k (coef l k).
  { rewrite /nf /keys big_map /= big_filter. rewrite [RHS](bigID (fun k => coef l k != idx)) /= [X in pl _ X]big1 ?Monoid.mulm1; last by move=> k; rewrite negbK => /eqP ->.
    apply: perm_big. by rewrite perm_sort. }
  rewrite L. have L2 k : F k (coef l k) = \big[pl/z]_(t <- l | t.1 == k) F k t.2 by rewrite /coef; apply: (big_morph (F k)).
  rewrite (eq_bigr _ (fun k _ => L2 k)). rewrite (exchange_big_dep predT) //= [LHS]big_seq [RHS]big_seq. apply: eq_bigr => t Ht.
  rewrite -big_filter -[RHS](big_seq1 pl t.1 (fun k => F k t.2)). apply: perm_big. apply: uniq_perm; rewrite ?filter_uniq ?undup_uniq // => k.
  rewrite mem_filter inE mem_undup eq_sym. case: eqP => //= ->. by rewrite map_f.
Qed.
End FinSupp.
