(* The ring itself. *)
From Coq Require Import List Arith Bool.
From mathcomp Require Import all_ssreflect all_algebra.
From mathcomp Require Import zify.
From Coq Require Import Lia.
From Verif Require Import MpModel FinSupp MpRing.
Set Implicit Arguments. Unset Strict Implicit. Unset Printing Implicit Defensive.
Import GRing.Theory.
Local Open Scope ring_scope.

Section Ring.
Variable R : comRingType.
Notation tm := (seq (mon * R)).
Notation addl := (GRing.add_comoid R).
Notation cf := (coef addl).
Notation rnf := (nf lex_le addl).
Definition tcan (l : tm) : bool := canon lex_le 0 l.
Lemma tcan_nf l : tcan (rnf l). Proof. apply: nf_canon => //; [exact: lexle_total|exact: lexle_tr]. Qed.
Lemma rnf_id l : tcan l -> rnf l = l. Proof. apply: canon_nf; [exact: lexle_total|exact: lexle_tr|exact: lexle_anti]. Qed.
Lemma rnf_ext l l' : cf l =1 cf l' -> rnf l = rnf l'. Proof. apply: nf_ext; [exact: lexle_total|exact: lexle_tr|exact: lexle_anti]. Qed.
Lemma tcan_ext l l' : tcan l -> tcan l' -> cf l =1 cf l' -> l = l'.
Proof. move=> H1 H2. apply: canon_ext H1 H2; [exact: lexle_total|exact: lexle_tr|exact: lexle_anti]. Qed.
Lemma cf_nf l m : cf (rnf l) m = cf l m. Proof. exact: coef_nf. Qed.
(* additive functions of a term list *)
Lemma lin_rnf (A : zmodType) (F : mon -> R -> A) l : (forall k, F k 0 = 0) -> (forall k x y, F k (x + y) = F k x + F k y) ->
  \sum_(t <- rnf l) F t.1 t.2 = \sum_(t <- l) F t.1 t.2.
Proof. move=> F0 Fa. exact: (@lin_nf _ lex_le _ _ addl A 0 (GRing.add_comoid A) F l). Qed.
Lemma cfE (l : tm) (m : mon) : cf l m = \sum_(t <- l) (if t.1 == m then t.2 else 0). Proof. by rewrite /coef big_mkcond. Qed.
Variable ok : pred nat.
Definition okm (m : mon) : bool := mcan m && all (fun x => ok x.1) m.
Definition valid (l : tm) : bool := tcan l && all (fun t => okm t.1) l.
Lemma okm_mm a b : okm a -> okm b -> okm (mm a b).
Proof. move=> /andP[H1 H2] /andP[H3 H4]. by rewrite /okm mcan_mm mm_vars // H2 H4. Qed.
Lemma okm1 : okm [::]. Proof. by []. Qed.
Lemma valid_nf l : all (fun t => okm t.1) l -> valid (rnf l).
Proof.
  move=> /allP H. rewrite /valid tcan_nf /=. apply/allP => t Ht. have : t.1 \in [seq s.1 | s <- rnf l] by apply: map_f. rewrite nf_keys /keys mem_filter mem_sort mem_undup => /andP[_].
  move=> /mapP[s Hs ->]. exact: H.
Qed.
Record mpoly := MkMp { mv :> tm; _ : valid mv }.
Canonical mpoly_subType := [subType for mv].
Definition mpoly_eqMixin := [eqMixin of mpoly by <:].
Canonical mpoly_eqType := EqType mpoly mpoly_eqMixin.
Definition mpoly_choiceMixin := [choiceMixin of mpoly by <:].
Canonical mpoly_choiceType := ChoiceType mpoly mpoly_choiceMixin.
Implicit Types x y z : mpoly.
Lemma mvP x : valid x. Proof. by case: x. Qed.
Lemma mv_can x : tcan x. Proof. by case/andP: (mvP x). Qed.
Lemma mv_ok x : all (fun t => okm t.1) x. Proof. by case/andP: (mvP x). Qed.
Lemma mp_ext x y : cf x =1 cf y -> x = y. Proof. move=> H. apply: val_inj => /=. apply: tcan_ext H; exact: mv_can. Qed.
(* operations *)
Definition mk l (H : all (fun t => okm t.1) l) : mpoly := MkMp (valid_nf H).
Lemma cf_mk l H m : cf (@mk l H) m = cf l m. Proof. exact: cf_nf. Qed.
Lemma add_ok x y : all (fun t => okm t.1) (x ++ y : tm). Proof. by rewrite all_cat !mv_ok. Qed.
Definition kadd x y := mk (add_ok x y).
Definition negl (l : tm) : tm := [seq (t.1, - t.2) | t <- l].
Lemma opp_ok x : all (fun t => okm t.1) (negl x). Proof. rewrite all_map. exact: mv_ok. Qed.
Definition kopp x := mk (opp_ok x).
Lemma zero_ok : all (fun t : mon * R => okm t.1) [::]. Proof. by []. Qed.
Definition kzero := mk zero_ok.
Lemma const_ok (c : R) : all (fun t : mon * R => okm t.1) [:: ([::], c)]. Proof. by []. Qed.
Definition kconst c := mk (const_ok c).
Definition mull (a b : tm) : tm := [seq (mm s.1 t.1, s.2 * t.2) | s <- a, t <- b].
Lemma mul_ok x y : all (fun t => okm t.1) (mull x y).
Proof. apply/allP => t /allpairsP[[s u] [/= Hs Hu ->]] /=. apply: okm_mm; [exact: (allP (mv_ok x))|exact: (allP (mv_ok y))]. Qed.
Definition kmul x y := mk (mul_ok x y).
Lemma cf_neg (l : tm) m : cf (negl l) m = - cf l m.
Proof. rewrite /coef big_map /= -sumrN. by []. Qed.
Lemma cf_mull (a b : tm) m : cf (mull a b) m = \sum_(s <- a) \sum_(t <- b) (if mm s.1 t.1 == m then s.2 * t.2 else 0).
Proof. by rewrite cfE /mull big_allpairs_dep. Qed.
Lemma kaddA : associative kadd.
Proof. move=> x y z. apply: mp_ext => m. by rewrite !cf_mk !coef_cat !cf_mk !coef_cat /= addrA. Qed.
Lemma kaddC : commutative kadd.
Proof. move=> x y. apply: mp_ext => m. by rewrite !cf_mk !coef_cat /= addrC. Qed.
Lemma kadd0 : left_id kzero kadd.
Proof. move=> x. apply: mp_ext => m. by rewrite cf_mk. Qed.
Lemma kaddN : left_inverse kzero kopp kadd.
Proof. move=> x. apply: mp_ext => m. rewrite cf_mk coef_cat !cf_mk cf_neg coef_nil. exact: addNr. Qed.
Definition k_zmodMixin := ZmodMixin kaddA kaddC kadd0 kaddN.
Canonical mpoly_zmodType := ZmodType mpoly k_zmodMixin.
(* sums over a product *)
Lemma lin_mul (A : zmodType) (F : mon -> R -> A) x y : (forall k, F k 0 = 0) -> (forall k c d, F k (c + d) = F k c + F k d) ->
  \sum_(u <- kmul x y : tm) F u.1 u.2 = \sum_(s <- x : tm) \sum_(t <- y : tm) F (mm s.1 t.1) (s.2 * t.2).
Proof. move=> F0 Fa. rewrite lin_rnf // /mull big_allpairs_dep. by []. Qed.
Lemma ifadd (b : bool) (c d : R) : (if b then c + d else 0) = (if b then c else 0) + (if b then d else 0).
Proof. by case: b; rewrite ?addr0. Qed.
Lemma sum_if0 (I : Type) (l : seq I) (P : pred I) (f : I -> R) : \sum_(i <- l) (if P i then f i else 0) * 0 = 0. Proof. rewrite big1 // => i _. by rewrite mulr0. Qed.
Lemma kmulC : commutative kmul.
Proof.
  move=> x y. apply: mp_ext => m. rewrite !cf_mk !cf_mull exchange_big. apply: eq_bigr => s _. apply: eq_bigr => t _. by rewrite mmC mulrC.
Qed.
Lemma kmulA : associative kmul.
Proof.
  move=> x y z. apply: mp_ext => m. rewrite !cf_mk !cf_mull.
  have E1 s : \sum_(u <- kmul y z : tm) (if mm s.1 u.1 == m then s.2 * u.2 else 0) = \sum_(t <- y : tm) \sum_(u <- z : tm) (if mm s.1 (mm t.1 u.1) == m then s.2 * (t.2 * u.2) else 0).
  { apply: (lin_mul (F := fun k c => if mm s.1 k == m then s.2 * c else 0)) => [k|k c d]; [by rewrite mulr0 if_same|by rewrite mulrDr ifadd]. }
  rewrite (eq_bigr _ (fun s _ => E1 s)).
  have -> := lin_mul (F := fun k c => \sum_(u <- z : tm) (if mm k u.1 == m then c * u.2 else 0)) x y.
  - apply: eq_bigr => s _. apply: eq_bigr => t _. apply: eq_bigr => u _. by rewrite mmA mulrA.
  - move=> k. rewrite big1 // => u _. by rewrite mul0r if_same.
  - move=> k c d. rewrite -big_split /=. apply: eq_bigr => u _. by rewrite mulrDl ifadd.
Qed.
Lemma kmul1 : left_id (kconst 1) kmul.
Proof.
  move=> x. apply: mp_ext => m. rewrite cf_mk cf_mull.
  rewrite (lin_rnf (F := fun k c => \sum_(t <- x : tm) (if mm k t.1 == m then c * t.2 else 0))).
  - rewrite big_seq1 cfE [LHS]big_seq [RHS]big_seq. apply: eq_bigr => t Ht /=. rewrite mul1r mm1 //. by have /andP[] := allP (mv_ok x) _ Ht.
  - move=> k. rewrite big1 // => u _. by rewrite mul0r if_same.
  - move=> k c d. rewrite -big_split /=. apply: eq_bigr => u _. by rewrite mulrDl ifadd.
Qed.
Lemma kmulDl : left_distributive kmul kadd.
Proof.
  move=> x y z. apply: mp_ext => m. rewrite !cf_mk coef_cat !cf_mk !cf_mull.
  rewrite (lin_rnf (F := fun k c => \sum_(t <- z : tm) (if mm k t.1 == m then c * t.2 else 0))) ?big_cat //.
  - move=> k. rewrite big1 // => u _. by rewrite mul0r if_same.
  - move=> k c d. rewrite -big_split /=. apply: eq_bigr => u _. by rewrite mulrDl ifadd.
Qed.
Lemma cf_one m : cf (kconst 1) m = (if [::] == m then 1 else 0). Proof. by rewrite cf_mk cfE big_seq1. Qed.
Lemma k10 : kconst 1 != 0.
Proof. apply/eqP => E. have := cf_one [::]. rewrite E cf_mk coef_nil eqxx => /eqP. by rewrite eq_sym oner_eq0. Qed.
Definition k_ringMixin := ComRingMixin kmulA kmulC kmul1 kmulDl k10.
Canonical mpoly_ringType := RingType mpoly k_ringMixin.
Canonical mpoly_comRingType := ComRingType mpoly kmulC.
Lemma cfD x y m : cf (x + y) m = cf x m + cf y m. Proof. by rewrite cf_mk coef_cat. Qed.
Lemma cfN x m : cf (- x) m = - cf x m. Proof. by rewrite cf_mk cf_neg. Qed.
Lemma cf0 m : cf (0 : mpoly) m = 0. Proof. by rewrite cf_mk coef_nil. Qed.
Lemma cfM x y m : cf (x * y) m = \sum_(s <- x : tm) \sum_(t <- y : tm) (if mm s.1 t.1 == m then s.2 * t.2 else 0). Proof. by rewrite cf_mk cf_mull. Qed.
Lemma cfC c m : cf (kconst c) m = (if [::] == m then c else 0). Proof. by rewrite cf_mk cfE big_seq1. Qed.
End Ring.
