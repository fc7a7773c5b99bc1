(* Evaluation, integrality, and expansion in one variable. *)
From Coq Require Import List Arith Bool.
From mathcomp Require Import all_ssreflect all_algebra.
From mathcomp Require Import zify.
From Coq Require Import Lia.
From Verif Require Import MpModel FinSupp MpRing MpRing2.
Set Implicit Arguments. Unset Strict Implicit. Unset Printing Implicit Defensive.
Import GRing.Theory.
Local Open Scope ring_scope.
Notation cf := (coef (GRing.add_comoid _)).
Notation rnf := (nf lex_le (GRing.add_comoid _)).

(* ------------------------------------------------------------------ evaluation *)
Section Ev.
Variables (R A : comRingType) (f : {rmorphism R -> A}) (th : nat -> A).
Definition mev (m : mon) : A := \prod_(x <- m) th x.1 ^+ x.2.
Definition evl (l : seq (mon * R)) : A := \sum_(t <- l) f t.2 * mev t.1.
Lemma mev_nf m : mev (nf leq addn_comoid m) = mev m.
Proof. apply: (@lin_nf _ leq _ _ addn_comoid A 1 (GRing.mul_comoid A) (fun v k => th v ^+ k)) => [v|v a b]; [exact: expr0|exact: exprD]. Qed.
Lemma mev_mm a b : mev (mm a b) = mev a * mev b. Proof. by rewrite mev_nf /mev big_cat. Qed.
Lemma evl_nf l : evl (rnf l) = evl l.
Proof. rewrite /evl. apply: (lin_rnf (F := fun k c => f c * mev k)) => [k|k c d]; [by rewrite rmorph0 mul0r|by rewrite rmorphD mulrDl]. Qed.
Lemma evl_cat a b : evl (a ++ b) = evl a + evl b. Proof. by rewrite /evl big_cat. Qed.
Lemma evl_neg a : evl (negl a) = - evl a. Proof. rewrite /evl big_map -sumrN. apply: eq_bigr => t _ /=. by rewrite rmorphN mulNr. Qed.
Lemma evl_mull a b : evl (mull a b) = evl a * evl b.
Proof.
  rewrite /evl /mull big_allpairs_dep mulr_suml. apply: eq_bigr => s _. rewrite mulr_sumr. apply: eq_bigr => t _ /=.
  by rewrite rmorphM mev_mm mulrACA.
Qed.
Lemma evl_perm a b : perm_eq a b -> evl a = evl b. Proof. move=> H. exact: perm_big. Qed.
Variable ok : pred nat.
Definition evk (x : mpoly R ok) : A := evl x.
Lemma evk_rmorphism : rmorphism evk.
Proof.
  split.
  - move=> x y. by rewrite /evk evl_nf evl_cat evl_nf evl_neg.
  - split=> [x y|]; first by rewrite /evk evl_nf evl_mull. by rewrite /evk evl_nf /evl big_seq1 /mev big_nil rmorph1 mulr1.
Qed.
Canonical evk_additive := Additive evk_rmorphism.
Canonical evk_rmorph := RMorphism evk_rmorphism.
Lemma evk_const c : evk (kconst ok c) = f c.
Proof. by rewrite /evk evl_nf /evl big_seq1 /mev big_nil mulr1. Qed.
End Ev.
Lemma evl_rmorph (R A B : comRingType) (f : {rmorphism R -> A}) (g : {rmorphism A -> B}) th l : g (evl f th l) = evl [rmorphism of g \o f] (g \o th) l.
Proof.
  rewrite /evl rmorph_sum. apply: eq_bigr => t _. rewrite rmorphM /= /mev rmorph_prod. congr (_ * _). apply: eq_bigr => x _. by rewrite rmorphX.
Qed.
Lemma evl_eq (R A : comRingType) (f g : {rmorphism R -> A}) th th' (ok : pred nat) l : f =1 g -> (forall v, ok v -> th v = th' v) -> all (fun t : mon * R => all (fun x => ok x.1) t.1) l ->
  evl f th l = evl g th' l.
Proof.
  move=> Hf Ht /allP H. rewrite /evl [LHS]big_seq [RHS]big_seq. apply: eq_bigr => t Hl. rewrite Hf. congr (_ * _). rewrite /mev [LHS]big_seq [RHS]big_seq.
  apply: eq_bigr => x Hx. rewrite Ht //. exact: (allP (H _ Hl)).
Qed.

(* ------------------------------------------------------------------ constants and variables *)
Section Const.
Variables (R : comRingType) (ok : pred nat).
Notation K := (mpoly R ok).
Notation tm := (seq (mon * R)).
Lemma kconst_rmorphism : rmorphism (@kconst R ok).
Proof.
  split.
  - move=> c d. apply: mp_ext => m. rewrite cfD cfN !cfC. case: eqP => _ //. by rewrite oppr0 addr0.
  - split=> // c d. apply: mp_ext => m. rewrite cfM cfC (lin_rnf (F := fun k e => \sum_(t <- kconst ok d : tm) (if mm k t.1 == m then e * t.2 else 0))).
    + rewrite big_seq1 /= (lin_rnf (F := fun k e => if mm [::] k == m then c * e else 0)) ?big_seq1 // => [k|k e e']; [by rewrite mulr0 if_same|by rewrite mulrDr ifadd].
    + move=> k. rewrite big1 // => u _. by rewrite mul0r if_same.
    + move=> k e e'. rewrite -big_split /=. apply: eq_bigr => u _. by rewrite mulrDl ifadd.
Qed.
Canonical kconst_additive := Additive kconst_rmorphism.
Canonical kconst_rmorph := RMorphism kconst_rmorphism.
Lemma kcM (c d : R) : kconst ok (c * d) = kconst ok c * kconst ok d. Proof. exact: rmorphM. Qed.
(* the monomial m with coefficient c, and 0 if a variable is not allowed *)
Definition km (m : mon) (c : R) : K := match @idP (all (fun t : mon * R => okm ok t.1) [:: (m, c)]) with ReflectT H => mk H | ReflectF _ => 0 end.
Lemma kmE m c : okm ok m -> mv (km m c) = rnf [:: (m, c)].
Proof. move=> H. rewrite /km. case: {-}_ / idP => // F. by case: F; rewrite /= H. Qed.
Lemma cf_km m c k : okm ok m -> cf (km m c) k = if m == k then c else 0.
Proof. move=> H. rewrite kmE // cf_nf cfE big_seq1. by []. Qed.
Definition vmon (v k : nat) : mon := if k == 0%N then [::] else [:: (v, k)].
Lemma mcan_vmon v k : mcan (vmon v k). Proof. rewrite /vmon. case: eqP => //= H. rewrite /mcan /canon /=. by case: eqP. Qed.
Lemma expo_vmon v k u : expo (vmon v k) u = if v == u then k else 0%N.
Proof. rewrite /vmon. case: eqP => [->|_]; first by rewrite coef_nil if_same. by rewrite coef_cons coef_nil /= addn0. Qed.
Lemma ok_vmon v k : ok v -> okm ok (vmon v k). Proof. move=> H. rewrite /okm mcan_vmon /vmon. case: eqP => //= _. by rewrite H. Qed.
Definition kvar v : K := km (vmon v 1) 1.
Lemma km_mul m m' c c' : okm ok m -> okm ok m' -> km m c * km m' c' = km (mm m m') (c * c').
Proof.
  move=> H H'. apply: mp_ext => k. rewrite cfM cf_km ?okm_mm // kmE // kmE //.
  rewrite (lin_rnf (F := fun j e => \sum_(t <- rnf [:: (m', c')] : tm) (if mm j t.1 == k then e * t.2 else 0))).
  + rewrite big_seq1 /= (lin_rnf (F := fun j e => if mm m j == k then c * e else 0)) ?big_seq1 // => [j|j e e']; [by rewrite mulr0 if_same|by rewrite mulrDr ifadd].
  + move=> j. rewrite big1 // => u _. by rewrite mul0r if_same.
  + move=> j e e'. rewrite -big_split /=. apply: eq_bigr => u _. by rewrite mulrDl ifadd.
Qed.
Lemma kconstE c : kconst ok c = km [::] c. Proof. apply: val_inj => /=. by rewrite kmE. Qed.
Lemma kvarX v k : ok v -> kvar v ^+ k = km (vmon v k) 1.
Proof.
  move=> Hv. elim: k => [|k IH]; first by rewrite expr0 -kconstE. rewrite exprS IH km_mul ?ok_vmon // mulr1. congr km. apply: mcan_ext; [exact: mcan_mm|exact: mcan_vmon|].
  move=> u. rewrite expo_mm !expo_vmon. case: eqP => // _. 
Qed.
Lemma kmD m c d : okm ok m -> km m (c + d) = km m c + km m d.
Proof. move=> H. apply: mp_ext => k. rewrite cfD !cf_km //. case: eqP => _ //. by rewrite addr0. Qed.
Lemma km_ev m c : okm ok m -> km m c = kconst ok c * mev kvar m.
Proof.
  move=> H. have -> : mev kvar m = km m 1.
  { move: H => /andP[]. elim: m => [|[v k] m IH] Hc Ho; first by rewrite /mev big_nil -kconstE. have [k0 Hc' Hv] := mcan_cons Hc. move: Ho => /= /andP[Ho1 Ho2]. rewrite /mev big_cons -/(mev _ _) IH // kvarX // km_mul ?ok_vmon //; last by rewrite /okm Hc'.
    rewrite mulr1. congr km. apply: mcan_ext => //; first exact: mcan_mm. move=> u. rewrite expo_mm expo_vmon coef_cons /=. by case: eqP. }
  rewrite kconstE km_mul // mulr1 mm1 //. by case/andP: H.
Qed.
Lemma ev_id (x : K) : evk [rmorphism of kconst ok] kvar x = x.
Proof.
  apply: mp_ext => k. rewrite /evk /evl. have -> : \sum_(t <- x : tm) [rmorphism of kconst ok] t.2 * mev kvar t.1 = \sum_(t <- x : tm) km t.1 t.2.
  { rewrite [LHS]big_seq [RHS]big_seq. apply: eq_bigr => t Ht. rewrite -km_ev //. exact: (allP (mv_ok x)). }
  have L : forall l : tm, all (fun t => okm ok t.1) l -> cf (\sum_(t <- l) km t.1 t.2) k = cf l k.
  { elim=> [|t l IH] /=; first by rewrite big_nil cf0. move=> /andP[H1 H2]. rewrite big_cons cfD IH // cf_km // coef_cons. case: eqP => _ //. by rewrite add0r. }
  apply: L. exact: mv_ok.
Qed.
End Const.

(* ------------------------------------------------------------------ integral domain *)
Section Idom.
Variables (R : idomainType) (ok : pred nat).
Notation K := (mpoly R ok).
Notation tm := (seq (mon * R)).
Implicit Types x y : K.
Lemma lead x : x != 0 -> exists h, [/\ h \in (x : tm), h.2 != 0 & forall t, t \in (x : tm) -> lex_le h.1 t.1].
Proof.
  case: x => [[|h l] V] N; first by case/eqP: N; apply: val_inj. exists h. rewrite mem_head. case/andP: (V) => /and3P[_ S C] _. split=> //; first by case/andP: C.
  move=> t /=. rewrite inE => /orP[/eqP ->|Ht]; first exact: lexle_refl. apply: (allP (order_path_min lexle_tr S)). exact: map_f.
Qed.
Lemma lead_mul x y h h' : (h \in (x : tm)) -> (forall t, t \in (x : tm) -> lex_le h.1 t.1) -> (h' \in (y : tm)) -> (forall t, t \in (y : tm) -> lex_le h'.1 t.1) ->
  cf (x * y) (mm h.1 h'.1) = h.2 * h'.2.
Proof.
  move=> Hh Lh Hh' Lh'. have U (z : K) : uniq (z : tm) by case/andP: (mvP z) => /and3P[U _ _] _; exact: map_uniq U.
  have C (z : K) t : t \in (z : tm) -> mcan t.1 by move=> Ht; case/andP: (allP (mv_ok z) _ Ht).
  have J (z : K) s t : s \in (z : tm) -> t \in (z : tm) -> s.1 = t.1 -> s = t.
  { case/andP: (mvP z) => /and3P[Uz _ _] _ Hs Ht E. rewrite [s]surjective_pairing [t]surjective_pairing E -(coef_uniq (GRing.add_comoid R) Uz Ht) -(coef_uniq (GRing.add_comoid R) Uz Hs). by rewrite E. }
  rewrite cfM (bigD1_seq h) //= (bigD1_seq h') //= eqxx. rewrite big1_seq ?addr0; last first.
  { move=> t /andP[/eqP N Ht]. case: eqP => // E. have [_ E2] := mm_mono (C _ _ Hh) (C _ _ Hh) (C _ _ Hh') (C _ _ Ht) (lexle_refl _) (Lh' _ Ht) (esym E). by case: N; apply: J Ht Hh' _. }
  rewrite big1_seq ?addr0 // => s /andP[/eqP N Hs]. rewrite big1_seq // => t /= Ht. case: eqP => // E.
  have [E1 _] := mm_mono (C _ _ Hh) (C _ _ Hs) (C _ _ Hh') (C _ _ Ht) (Lh _ Hs) (Lh' _ Ht) (esym E). by case: N; apply: J Hs Hh _.
Qed.
Lemma k_idom x y : x * y = 0 -> (x == 0) || (y == 0).
Proof.
  move=> E. case: (boolP (x == 0)) => // Nx. case: (boolP (y == 0)) => // Ny. have [h [H1 H2 H3]] := lead Nx. have [h' [H1' H2' H3']] := lead Ny.
  have := lead_mul H1 H3 H1' H3'. rewrite E cf0 => /esym/eqP. by rewrite mulf_eq0 (negbTE H2) (negbTE H2').
Qed.
Definition kunit : pred K := fun x => (x == kconst ok (cf x [::])) && (cf x [::] \is a GRing.unit).
Definition kinv x : K := if kunit x then kconst ok (cf x [::])^-1 else x.
Lemma kmulV : {in kunit, left_inverse 1 kinv *%R}.
Proof. move=> x. rewrite -topredE /= => Hx. rewrite /kinv Hx. case/andP: Hx => /eqP E U. by rewrite {2}E -rmorphM mulVr // rmorph1. Qed.
Lemma const1 x y : y * x = 1 -> x = kconst ok (cf x [::]).
Proof.
  move=> E. have Nx : x != 0 by apply/eqP => Z; move: E; rewrite Z mulr0 => /esym/eqP; rewrite oner_eq0.
  have Ny : y != 0 by apply/eqP => Z; move: E; rewrite Z mul0r => /esym/eqP; rewrite oner_eq0.
  have [h [H1 H2 H3]] := lead Nx. have [h' [H1' H2' H3']] := lead Ny. have := lead_mul H1' H3' H1 H3. rewrite E cf_one. case: eqP => [Em _|_ /esym/eqP]; last by rewrite mulf_eq0 (negbTE H2) (negbTE H2').
  have Eh : h.1 = [::]. { apply: expo0_nil; first by case/andP: (allP (mv_ok x) _ H1). move=> v. have := expo_mm h'.1 h.1 v. rewrite -Em coef_nil. lia. }
  apply: mp_ext => m. rewrite cfC. case: eqP => [<-|N] //. apply: coef_out. apply/negP => /mapP[t Ht Et]. have := H3 _ Ht. rewrite Eh -Et lexle0 => /eqP E0. by case: N.
Qed.
Lemma kunitPl x y : y * x = 1 -> kunit x.
Proof.
  move=> E. have Ex := const1 E. apply/andP; split; first exact/eqP. have Ey : x * y = 1 by rewrite mulrC. have := E. rewrite {1}Ex {1}(const1 Ey) -kcM => H. have := cfC ok (cf y [::] * cf x [::]) [::]. rewrite H cf_one eqxx => U.
  apply/unitrP. exists (cf y [::]). split=> //. by rewrite mulrC.
Qed.
Lemma kinv_out : {in [predC kunit], kinv =1 id}.
Proof. move=> x. rewrite -topredE /= => /negbTE H. by rewrite /kinv -[kunit x]/(x \in kunit) H. Qed.
Definition k_unitMixin := ComUnitRingMixin kmulV kunitPl kinv_out.
Canonical mpoly_unitRingType := UnitRingType K k_unitMixin.
Canonical mpoly_comUnitRingType := [comUnitRingType of K].
Canonical mpoly_idomainType := IdomainType K k_idom.
End Idom.
