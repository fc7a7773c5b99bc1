(* The model computes in the ring of MpRing2. *)
From Coq Require Import List Arith NArith Bool.
From mathcomp Require Import all_ssreflect all_algebra.
From mathcomp Require Import zify.
From Coq Require Import Lia.
From Verif Require Import RingSpec RingModel PermModel MatModel MatSpec PolyModel PolyProofs MpModel FinSupp MpRing MpRing2 MpRing3 MpRing4.
Close Scope rs_scope.
Set Implicit Arguments. Unset Strict Implicit. Unset Printing Implicit Defensive.
Import GRing.Theory.
Local Open Scope ring_scope.

(* ------------------------------------------------------------------ sorting, hash maps *)
Section Sort.
Variables (A : eqType) (le : rel A).
Lemma perm_ins x (l : seq A) : perm_eq (ins le x l) (x :: l).
Proof.
  elim: l => //= y l IH. case: ifP => // _. apply: (@perm_trans _ (y :: x :: l)); first by rewrite perm_cons. by rewrite -[X in perm_eq _ X]/([:: x] ++ [:: y] ++ l) -[X in perm_eq X _]/([:: y] ++ [:: x] ++ l) perm_catCA.
Qed.
Lemma perm_isort (l : seq A) : perm_eq (isort le l) l.
Proof. elim: l => //= x l IH. apply: perm_trans (perm_ins _ _) _. by rewrite perm_cons. Qed.
Hypothesis tot : total le.
Hypothesis tr : transitive le.
Lemma path_ins y x l : le y x -> path le y l -> path le y (ins le x l).
Proof. elim: l y => [|z l IH] y /= H; first by rewrite H. case/andP=> H1 H2. case: ifP => Hx /=; first by rewrite H Hx. rewrite H1 /=. apply: IH => //. by case/orP: (tot x z); rewrite ?Hx. Qed.
Lemma sorted_isort l : sorted le (isort le l).
Proof.
  elim: l => //= x l. case: (isort le l) => //= y l' IH. case: ifP => Hx /=; first by rewrite Hx. apply: path_ins IH. by case/orP: (tot x y); rewrite ?Hx.
Qed.
End Sort.
Lemma map_isort (A B : Type) (f : A -> B) (le : B -> B -> bool) l : map f (isort (fun x y => le (f x) (f y)) l) = isort le (map f l).
Proof.
  have I x l' : map f (ins (fun x y => le (f x) (f y)) x l') = ins le (f x) (map f l') by elim: l' => //= y l' <-; case: ifP.
  by elim: l => //= x l <-.
Qed.
Section Entry.
Variables (K : eqType) (V : eqType) (idx : V) (op : Monoid.com_law idx) (eqb : K -> K -> bool).
Hypothesis eqbE : forall a b, eqb a b = (a == b).
Lemma entry_coef k v (h : seq (K * V)) j : uniq [seq t.1 | t <- h] -> coef op (entry_add eqb idx op k v h) j = if k == j then op (coef op h j) v else coef op h j.
Proof.
  elim: h => [|[k' v'] h IH] /=; first by rewrite coef_cons !coef_nil /= !Monoid.mul1m Monoid.mulm1. move=> /andP[H1 H2]. rewrite eqbE. case: (k =P k') => [E|N].
  - subst k'. rewrite !coef_cons /=. case: eqP => // E. subst j. by rewrite -!Monoid.mulmA [op v _]Monoid.mulmC.
  - rewrite !coef_cons /= IH //. case: (k' =P j) => // E. case: (k =P j) => [E'|_] //. by case: N; rewrite E'.
Qed.
Lemma entry_keys k v (h : seq (K * V)) : [seq t.1 | t <- entry_add eqb idx op k v h] = if k \in [seq t.1 | t <- h] then [seq t.1 | t <- h] else rcons [seq t.1 | t <- h] k.
Proof. elim: h => [|[k' v'] h IH] //=. rewrite eqbE inE. case: eqP => [->|N] //=. rewrite IH. by case: ifP. Qed.
Lemma entry_uniq k v (h : seq (K * V)) : uniq [seq t.1 | t <- h] -> uniq [seq t.1 | t <- entry_add eqb idx op k v h].
Proof. move=> H. rewrite entry_keys. case: ifP => // N. by rewrite rcons_uniq N. Qed.
Lemma fold_entry (I : Type) (l : seq I) (f : I -> K) (g : I -> V) h : uniq [seq t.1 | t <- h] ->
  let h' := List.fold_left (fun h i => entry_add eqb idx op (f i) (g i) h) l h in
  uniq [seq t.1 | t <- h'] /\ forall j, coef op h' j = op (coef op h j) (coef op [seq (f i, g i) | i <- l] j).
Proof.
  elim: l h => [|i l IH] h U /=; first by split=> // j; rewrite coef_nil Monoid.mulm1. have [H1 H2] := IH _ (entry_uniq (f i) (g i) U). split=> // j. rewrite H2 entry_coef // coef_cons /=.
  case: eqP => _ //. by rewrite Monoid.mulmA.
Qed.
End Entry.

(* ------------------------------------------------------------------ monomials *)
Lemma vp_eqbE x y : vp_eqb x y = (x == y).
Proof. case: x y => [a b] [c d]. rewrite /vp_eqb /= xpair_eqE. by congr (_ && _); apply/Nat.eqb_spec/eqP. Qed.
Lemma mono_eqbE (a b : mon) : mono_eqb a b = (a == b).
Proof. elim: a b => [|x a IH] [|y b] //=. by rewrite vp_eqbE IH. Qed.
Lemma lebE a b : Nat.leb a b = (a <= b)%N. Proof. by apply/Nat.leb_spec0/ssrnat.leP. Qed.
Lemma eqbE a b : Nat.eqb a b = (a == b). Proof. by apply/Nat.eqb_spec/eqP. Qed.
Lemma filterE (A : Type) (p : A -> bool) l : List.filter p l = [seq x <- l | p x]. Proof. by []. Qed.
Lemma coef_filter (K V : eqType) (idx : V) (op : Monoid.com_law idx) (l : seq (K * V)) k : coef op [seq t <- l | t.2 != idx] k = coef op l k.
Proof. elim: l => //= t l IH. case: eqP => [E|_] /=; rewrite !coef_cons IH // E. by rewrite Monoid.mul1m if_same. Qed.
Lemma mono_new_perm m : perm_eq (mono_new m) [seq x <- m | x.2 != 0%N].
Proof. rewrite /mono_new. apply: perm_trans (perm_isort _ _) _. have -> : List.filter (fun x : nat * nat => negb (Nat.eqb x.2 0)) m = [seq x <- m | x.2 != 0%N] by apply: eq_filter => x; rewrite eqbE. by []. Qed.
Lemma expo_new m v : expo (mono_new m) v = expo m v.
Proof. by rewrite (coef_perm _ _ (mono_new_perm m)) coef_filter. Qed.
Lemma mono_new_can m : uniq [seq x.1 | x <- m] -> mcan (mono_new m).
Proof.
  move=> U. have P := mono_new_perm m. apply/and3P; split.
  - rewrite (perm_uniq (perm_map _ P)). apply: subseq_uniq U. apply: map_subseq. exact: filter_subseq.
  - rewrite /mono_new. rewrite (map_isort fst (fun a b => Nat.leb a b)). apply: (sub_sorted (e := fun a b => Nat.leb a b)); first by move=> a b; rewrite lebE. apply: sorted_isort => a b. rewrite !lebE. exact: leq_total.
  - apply/allP => x. rewrite (perm_mem P) mem_filter => /andP[H _]. exact: H.
Qed.
Lemma mono_newE m : uniq [seq x.1 | x <- m] -> mono_new m = nf leq addn_comoid m.
Proof. move=> U. apply: mcan_ext; [exact: mono_new_can|exact: mcan_nf|]. move=> v. by rewrite expo_new expo_nf. Qed.
Lemma mono_new_id m : mcan m -> mono_new m = m.
Proof. move=> H. rewrite mono_newE; first exact: mnf_id. by case/and3P: H. Qed.
Lemma mono_mulE a b : mono_mul a b = mm a b.
Proof.
  rewrite /mono_mul. have [U1 C1] := fold_entry addn_comoid eqbE a fst snd (h := [::]) isT.
  have [U2 C2] := fold_entry addn_comoid eqbE b fst snd U1. rewrite mono_newE //. apply: mnf_ext => v. rewrite C2 C1 coef_nil coef_cat.
  have E (l : mon) : [seq (x.1, x.2) | x <- l] = l by rewrite -[RHS]map_id; apply: eq_map => -[].
  by rewrite !E.
Qed.
Lemma mono_degreeE m : mono_degree m = (\sum_(x <- m) x.2)%N.
Proof.
  rewrite /mono_degree. have L : forall s, List.fold_left (fun d (x : nat * nat) => Nat.add d x.2) m s = (s + \sum_(x <- m) x.2)%N.
  { elim: m => [|x m IH] s /=; first by rewrite big_nil addn0. rewrite IH big_cons. rewrite addnA. by []. }
  by rewrite L.
Qed.
Lemma get_var_powE m v : mcan m -> get_var_pow m v = expo m v.
Proof.
  move=> /and3P[U _ _]. rewrite /get_var_pow. case E: (List.find _ _) => [x|].
  - have [H1 H2] := List.find_some _ _ E. move: H2 H1. rewrite eqbE => /eqP <-. rewrite -List.in_rev => H. have {}H : x \in m by elim: m H {E U} => //= y m IH [->|/IH]; rewrite inE ?eqxx // => ->; rewrite orbT.
    by rewrite (coef_uniq _ U H).
  - rewrite coef_out //. apply/negP => /mapP[x Hx Ex]. have := List.find_none _ _ E x. rewrite -List.in_rev eqbE -Ex eqxx => H. suff : false by []. suff : List.In x m by move/H. elim: m Hx {E U H} => //= y m IH. rewrite inE => /orP[/eqP ->|/IH]; by [left|right].
Qed.
Lemma mem_hset (l : seq nat) v : (v \in hset Nat.eqb l) = (v \in l).
Proof.
  elim: l => //= x l IH. rewrite !inE mem_filter IH eqbE eq_sym. by case: eqP.
Qed.
Lemma uniq_hset (l : seq nat) : uniq (hset Nat.eqb l).
Proof. elim: l => //= x l IH. rewrite filter_uniq // andbT mem_filter eqbE eqxx. by []. Qed.

(* ------------------------------------------------------------------ polynomials *)
Section P.
Variable R : comRingType.
Notation O := (mc_ops R).
Notation tm := (seq (mon * R)).
Implicit Types (a b p : tm).
Definition wfb p : bool := all (fun t => mcan t.1) p && uniq [seq t.1 | t <- p].
Lemma mem_all_perm (A : eqType) (P : pred A) (l l' : seq A) : perm_eq l l' -> all P l = all P l'. Proof. exact: perm_all. Qed.
Lemma mp_new_perm p : perm_eq (mp_new p) p. Proof. exact: perm_isort. Qed.
Lemma reduce_perm p : perm_eq (@mp_reduce O p) [seq t <- p | t.2 != 0].
Proof. exact: perm_isort. Qed.
Lemma reduce_cf p m : cf (@mp_reduce O p) m = cf p m.
Proof. by rewrite (coef_perm _ _ (reduce_perm p)) coef_filter. Qed.
Lemma reduce_can p : uniq [seq t.1 | t <- p] -> tcan (@mp_reduce O p).
Proof.
  move=> U. have P := reduce_perm p. apply/and3P; split.
  - rewrite (perm_uniq (perm_map _ P)). apply: subseq_uniq U. apply: map_subseq. exact: filter_subseq.
  - rewrite /mp_reduce /mp_new (map_isort fst lex_le). apply: sorted_isort. exact: lexle_total.
  - apply/allP => x. rewrite (perm_mem P) mem_filter => /andP[H _]. exact: H.
Qed.
Lemma reduceE p : uniq [seq t.1 | t <- p] -> @mp_reduce O p = rnf p.
Proof. move=> U. apply: tcan_ext; [exact: reduce_can|exact: tcan_nf|]. move=> m. by rewrite reduce_cf cf_nf. Qed.
Lemma reduce_id p : tcan p -> @mp_reduce O p = p.
Proof. move=> H. rewrite reduceE; first exact: rnf_id. by case/and3P: H. Qed.
Lemma tcan_wf p : all (fun t => mcan t.1) p -> tcan p -> wfb p. Proof. move=> H /and3P[U _ _]. by rewrite /wfb H. Qed.
Lemma rnf_mcan p : all (fun t => mcan t.1) p -> all (fun t => mcan t.1) (rnf p).
Proof.
  move=> /allP H. apply/allP => t Ht. have : t.1 \in [seq s.1 | s <- rnf p] by apply: map_f. rewrite nf_keys /keys mem_filter mem_sort mem_undup => /andP[_].
  move=> /mapP[s Hs ->]. exact: H.
Qed.
Lemma rnf_wf p : all (fun t => mcan t.1) p -> wfb (rnf p). Proof. move=> H. apply: tcan_wf; [exact: rnf_mcan|exact: tcan_nf]. Qed.
Lemma mp_eqbE a b : @mp_eqb O a b = (a == b).
Proof. elim: a b => [|[m c] a IH] [|[m' c'] b] //=. rewrite IH mono_eqbE eqseq_cons xpair_eqE. by rewrite [(m == m') && _]andbC. Qed.
Lemma mp_equalE a b : uniq [seq t.1 | t <- a] -> uniq [seq t.1 | t <- b] -> @mp_equal O a b = (rnf a == rnf b).
Proof. move=> Ha Hb. by rewrite /mp_equal mp_eqbE !reduceE. Qed.
Lemma mp_mulE a b : @mp_mul O a b = rnf (mull a b).
Proof.
  rewrite /mp_mul. set h := List.fold_left _ _ _.
  have [U C] : uniq [seq t.1 | t <- h] /\ forall j, cf h j = cf (mull a b) j.
  { have L (h0 : tm) : uniq [seq t.1 | t <- h0] -> let h := List.fold_left (fun h s => List.fold_left (fun h (t : mon * R) => entry_add mono_eqb 0 +%R (mono_mul s.1 t.1) (s.2 * t.2) h) b h) a h0 in
      uniq [seq t.1 | t <- h] /\ forall j, cf h j = cf h0 j + cf (mull a b) j.
    { elim: a h0 {h} => [|s a IH] h0 U /=; first by split=> // j; rewrite coef_nil /= addr0.
      have [U1 C1] := fold_entry (GRing.add_comoid R) mono_eqbE b (fun t => mono_mul s.1 t.1) (fun t => s.2 * t.2) U. have [U2 C2] := IH _ U1. split=> // j. rewrite C2 C1 coef_cat /= addrA. congr (_ + _ + _).
      congr (coef _ _ j). apply: eq_map => t /=. by rewrite mono_mulE. }
    have [U C] := L [::] isT. split=> // j. by rewrite [LHS]C coef_nil /= add0r. }
  have U' : uniq [seq t.1 | t <- mp_new h] by rewrite (perm_uniq (perm_map _ (mp_new_perm h))).
  rewrite reduceE //. apply: rnf_ext => m. by rewrite (coef_perm _ _ (mp_new_perm h)) C.
Qed.
Lemma existsbE (A : eqType) (P : pred A) l : List.existsb P l = has P l. Proof. by []. Qed.
Lemma upd_last_keys m c p : [seq t.1 | t <- @upd_last O m c p] = [seq t.1 | t <- p].
Proof. elim: p => //= t p IH. case: ifP => //= _. by rewrite IH. Qed.
Lemma has_key m p : List.existsb (fun s : mon * R => mono_eqb m s.1) p = (m \in [seq t.1 | t <- p]).
Proof. elim: p => //= t p IH. by rewrite IH mono_eqbE inE. Qed.
Lemma upd_last_cf m c p k : m \in [seq t.1 | t <- p] -> cf (@upd_last O m c p) k = (if m == k then c else 0) + cf p k.
Proof.
  elim: p => //= t p IH. rewrite has_key mono_eqbE inE. case: (m =P t.1) => [E _|N /= H] /=.
  - case: ifP => H /=.
    + rewrite !coef_cons /= -E. case: eqP => _; last by rewrite add0r. by rewrite [t.2 + c]addrC addrA.
    + rewrite !coef_cons -E IH; last by move/negbFE: H. case: eqP => _ //. by rewrite /= addrCA.
  - rewrite !coef_cons IH //. case: eqP => // _. by rewrite /= addrCA.
Qed.
Lemma mp_addE a b : uniq [seq t.1 | t <- a] -> uniq [seq t.1 | t <- b] -> @mp_add O a b = rnf (a ++ b).
Proof.
  move=> Ua Ub. rewrite /mp_add. set acc := List.fold_left _ _ _.
  have L : forall c : tm, uniq [seq t.1 | t <- c] -> (forall k, k \in [seq t.1 | t <- a] -> k \in [seq t.1 | t <- c]) ->
    (forall k, k \in [seq t.1 | t <- b] -> k \notin [seq t.1 | t <- a] -> k \notin [seq t.1 | t <- c]) ->
    let h := List.fold_left (fun acc t => if List.existsb (fun s : mon * R => mono_eqb t.1 s.1) a then @upd_last O t.1 t.2 acc else List.app acc [:: t]) b c in
    uniq [seq t.1 | t <- h] /\ forall k, cf h k = cf c k + cf b k.
  { elim: b Ub {acc} => [|t b IH] /= Ub c Uc S1 S2; first by split=> // k; rewrite coef_nil addr0. move/andP: Ub => [Nt Ub]. rewrite has_key. case: ifP => Ht.
    - have Hk := upd_last_keys t.1 t.2 c. have [] := IH Ub (@upd_last O t.1 t.2 c); rewrite ?Hk //. { move=> k Hkb. apply: S2. by rewrite inE Hkb orbT. }
      move=> U C. split=> // k. rewrite C upd_last_cf ?S1 // coef_cons. case: eqP => _; rewrite ?add0r //=. by rewrite -addrA addrCA.
    - have Hk : [seq s.1 | s <- c ++ [:: t]] = rcons [seq s.1 | s <- c] t.1 by rewrite map_cat /= cats1.
      have [] := IH Ub (c ++ [:: t]).
      + rewrite Hk rcons_uniq Uc andbT. apply: S2; by rewrite ?mem_head ?Ht.
      + move=> k Hka. by rewrite Hk mem_rcons inE S1 ?orbT.
      + move=> k Hkb Nk. rewrite Hk mem_rcons inE negb_or S2 ?andbT //; last by rewrite inE Hkb orbT. apply/eqP => E. by move: Nt; rewrite -E Hkb.
      + move=> U C. split=> // k. rewrite C coef_cat !coef_cons coef_nil /=. case: eqP => _; by rewrite ?addr0 ?addrA. }
  have [U C] := L a Ua (fun k H => H) (fun k _ H => H). rewrite reduceE //. apply: rnf_ext => m. by rewrite coef_cat C.
Qed.
Lemma mp_negE a : @mp_neg O a = negl a. Proof. by []. Qed.
Lemma neg_can a : tcan a -> tcan (negl a).
Proof.
  move=> /and3P[H1 H2 H3]. have E : [seq t.1 | t <- negl a] = [seq t.1 | t <- a] by rewrite -map_comp. rewrite /tcan /canon E H1 H2 /= all_map. apply: sub_all H3 => t /=. by rewrite oppr_eq0.
Qed.
(* ring operations on canonical lists *)
Variable ok : pred nat.
Notation K := (mpoly R ok).
Implicit Types x y : K.
Lemma U x : uniq [seq t.1 | t <- x : tm]. Proof. by case/and3P: (mv_can x). Qed.
Lemma mv_add x y : @mp_add O x y = mv (x + y). Proof. by rewrite mp_addE ?U. Qed.
Lemma mv_mul x y : @mp_mul O x y = mv (x * y). Proof. by rewrite mp_mulE. Qed.
Lemma mv_neg x : @mp_neg O x = mv (- x). Proof. rewrite mp_negE -[LHS]rnf_id //. apply: neg_can. exact: mv_can. Qed.
Lemma mv_zero : @mp_zero O = mv (0 : K). Proof. by []. Qed.
Lemma tcan_one : tcan [:: ([::] : mon, (1 : R))]. Proof. by rewrite /tcan /canon /= oner_eq0. Qed.
Lemma mv_one : @mp_one O = mv (1 : K). Proof. rewrite /= rnf_id //. exact: tcan_one. Qed.
Lemma mv_eq x y : @mp_equal O x y = (x == y).
Proof. rewrite mp_equalE ?U // !rnf_id ?mv_can //. Qed.
End P.
