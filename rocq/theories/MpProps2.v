(* C29: multivariate polynomials, continued: evaluation, degrees, expansion in a variable, renaming, division. *)
From Coq Require Import List Arith NArith ZArith Bool.
From mathcomp Require Import all_ssreflect all_algebra.
From mathcomp Require Import zify.
From Coq Require Import Lia.
From Verif Require Import RingSpec RingModel PermModel MatModel MatSpec PolyModel PolyProofs PolyHom MpModel FinSupp MpRing MpRing2 MpRing3 MpRing4 MpProofs MpProofs2 MpSpec MpProofs3 MpProps.
From Verif Require Import ZRing MatInst.
Close Scope rs_scope.
Set Implicit Arguments. Unset Strict Implicit. Unset Printing Implicit Defensive.
Import GRing.Theory.
Local Open Scope ring_scope.
Section P.
Variable R : comRingType.
Notation O := (mc_ops R).
Notation poly := (seq (mon * R)).
Implicit Types (a b p : poly).

(* ------------------------------------------------------------------ variables and values *)
Theorem C29_free_vars p v : (v \in mp_free_vars p) = occurs v p /\ uniq (mp_free_vars p).
Proof. split; [exact: free_varsE|exact: uniq_hset]. Qed.
(* evaluate: the value, and a panic exactly when a variable that occurs has no value *)
Theorem C29_evaluate (vals : nat -> option R) p :
  ((forall v, occurs v p -> vals v <> None) -> @mp_evaluate O vals p = Some (value [rmorphism of idfun] (fun v => odflt 0 (vals v)) p)) /\
  (forall v, occurs v p -> vals v = None -> @mp_evaluate O vals p = None).
Proof.
  rewrite mp_evalE. split.
  - move=> H. rewrite ifT //. apply/allP => t Ht. apply/allP => x Hx. have := H x.1. case: (vals x.1) => // N. suff : occurs x.1 p by move/N.
    apply/hasP. exists t => //. apply/hasP. by exists x.
  - move=> v /hasP[t Ht /hasP[x Hx /eqP <-]] E. rewrite ifF //. apply/negbTE. apply/allPn. exists t => //. apply/allPn. exists x => //. by rewrite E.
Qed.
(* the value only depends on the variables that occur *)
Theorem C29_value_occurs (A : comRingType) (f : {rmorphism R -> A}) th th' p : (forall v, occurs v p -> th v = th' v) -> value f th p = value f th' p.
Proof.
  move=> H. rewrite /value. apply: eq_big_seq => t Ht. congr (_ * _). apply: eq_big_seq => x Hx. rewrite H //. apply/hasP. exists t => //. apply/hasP. by exists x.
Qed.
(* evaluate_var_zero: the value at 0 of one variable *)
Theorem C29_evaluate_var_zero p v : wf p -> wf (mp_evaluate_var_zero p v) /\ ~~ occurs v (mp_evaluate_var_zero p v) /\
  forall (A : comRingType) (f : {rmorphism R -> A}) th, value f th (mp_evaluate_var_zero p v) = value f (fun u => if u == v then 0 else th u) p.
Proof.
  move=> Hp. have E : mp_evaluate_var_zero p v = [seq t <- p | expo t.1 v == 0%N]. { apply: eq_in_filter => t Ht. rewrite eqbE get_var_powE //. exact: (allP (wf_mcan Hp)). }
  rewrite E. split; last split.
  - case/andP: Hp => H1 H2. rewrite /wf (subseq_uniq _ H2) ?andbT; first by apply/allP => t; rewrite mem_filter => /andP[_ /(allP H1)]. apply: map_subseq. exact: filter_subseq.
  - apply/negP => /hasP[t]. rewrite mem_filter => /andP[/eqP Z Ht] /hasP[x Hx /eqP Ex]. have C := allP (wf_mcan Hp) t Ht. have := mem_vars v C. rewrite Z eqxx => /negP. apply. rewrite -Ex. exact: map_f.
  - move=> A f th. rewrite /value big_filter. rewrite [LHS]big_mkcond /=. apply: eq_big_seq => t Ht. have C := allP (wf_mcan Hp) t Ht. have := mem_vars v C. case: eqP => Z /= M.
    + congr (_ * _). apply: eq_big_seq => x Hx. case: eqP => // Ex. move: M. by rewrite -Ex (map_f fst Hx).
    + rewrite [X in _ = _ * X](_ : _ = 0) ?mulr0 //. move/mapP: M => [x Hx Ex]. rewrite (big_rem x Hx) /= -Ex eqxx expr0n.
      have -> : (x.2 == 0%N) = false by apply/negbTE; case/and3P: C => _ _ /allP; apply. by rewrite mul0r.
Qed.

(* has_all_vars_parts: the terms in which all the given variables occur *)
Theorem C29_has_all_vars_parts p vs : wf p -> wf (mp_has_all_vars_parts p vs) /\
  forall m, coeff (mp_has_all_vars_parts p vs) m = if all (fun v => 0 < power m v)%N vs then coeff p m else 0.
Proof.
  move=> Hp. have E : mp_has_all_vars_parts p vs = [seq t <- p | all (fun v => 0 < expo t.1 v)%N vs].
  { apply: eq_in_filter => t Ht. apply: eq_all => v. rewrite get_var_powE; last exact: (allP (wf_mcan Hp)). by apply/Nat.ltb_spec0/ssrnat.ltP. }
  rewrite E. split. { case/andP: Hp => H1 H2. rewrite /wf (subseq_uniq _ H2) ?andbT; first by apply/allP => t; rewrite mem_filter => /andP[_ /(allP H1)]. apply: map_subseq. exact: filter_subseq. }
  move=> m. rewrite /coeff big_filter_cond. case: ifP => H.
  - apply: eq_bigl => t. case: eqP => [->|_]; by rewrite ?andbF // andbT; exact: H.
  - rewrite big_pred0 // => t. case: eqP => [->|_]; by rewrite ?andbF // andbT; exact: H.
Qed.
(* ------------------------------------------------------------------ constants and degrees *)
Theorem C29_as_constant p : normal p -> forall c, @mp_as_constant O p = Some c <-> forall m, coeff p m = if m == [::] then c else 0.
Proof.
  move=> Hp c. have [C _] := (normalE p).1 Hp. have K : (forall m, coeff p m = if m == [::] then c else 0) <-> p = rnf [:: ([::], c)].
  { split=> [H|->].
    - apply: tcan_ext => //; first exact: tcan_nf. move=> m. rewrite cf_nf coef_cons coef_nil /= eq_sym -[cf p m]/(coeff p m) H. case: eqP => _ //. by rewrite /= addr0.
    - move=> m. rewrite -[coeff _ m]/(cf _ m) cf_nf coef_cons coef_nil /= eq_sym. case: eqP => _ //. by rewrite /= addr0. }
  have N : rnf [:: ([::] : mon, c)] = if c == 0 then [::] else [:: ([::], c)].
  { apply: tcan_ext; first exact: tcan_nf. { case: ifP => // H. by rewrite /tcan /canon /= H. } move=> m. rewrite cf_nf. case: eqP => [->|_] //. rewrite coef_cons !coef_nil /=. case: eqP => _ //. by rewrite /= addr0. }
  rewrite K N. case: p {K Hp} C => [|t [|t' p]] C /=.
  - case: eqP => [->|H]; split=> // -[E]. by case: H.
  - rewrite mono_eqbE. case: t C => m d C /=. have D : d != 0 by case/and3P: C => _ _ /=; rewrite andbT. case: eqP => [->|H].
    + split=> [[<-]|]; first by rewrite (negbTE D). by case: ifP => // _ [->].
    + split=> //. case: ifP => // _ [E _]. by case: H.
  - split=> //. by case: ifP.
Qed.
Lemma degree_list p : mp_degree p = if p is t :: _ then Some (\max_(t <- p) total_degree t.1)%N else None.
Proof.
  case: p => //= t p. congr Some. rewrite big_cons mono_degreeE -[(\sum_(x <- t.1) x.2)%N]/(total_degree t.1). move: (total_degree t.1) => s. elim: p s => [|u p IH] s /=; first by rewrite big_nil maxn0.
  rewrite IH big_cons mono_degreeE -[(\sum_(x <- u.1) x.2)%N]/(total_degree u.1) maxnA. congr maxn. lia.
Qed.
(* degree: the largest total degree of a monomial with non-zero coefficient; None for zero *)
Theorem C29_degree p : normal p -> match @mp_degree R p with
  | Some d => (exists m, mono_ok m /\ coeff p m != 0 /\ total_degree m = d) /\ forall m, coeff p m != 0 -> (total_degree m <= d)%N
  | None => forall m, coeff p m = 0 end.
Proof.
  move=> Hp. have [/and3P[U _ Nz] C] := (normalE p).1 Hp. rewrite degree_list. case E: p => [|t p']; first by move=> m; rewrite /coeff big_nil. rewrite -E. set d := (\max_(t <- p) _)%N. split.
  - have [s Hs Es] : exists2 s, s \in p & total_degree s.1 = d.
    { rewrite /d E. move: (t). elim: (p') => [|u q IH] t0; first by exists t0; rewrite ?mem_head // big_seq1. have [s Hs Es] := IH u. rewrite big_cons. case: (leqP (total_degree t0.1) (\max_(j <- u :: q) total_degree j.1)) => H.
      - exists s; last by rewrite Es; lia. by rewrite inE Hs orbT.
      - exists t0; rewrite ?mem_head //. }
    exists s.1. split; first by rewrite mono_okE (allP C). split=> //. rewrite -[coeff p s.1]/(cf p s.1) (coef_uniq _ U Hs). exact: (allP Nz).
  - move=> m Hm. have : m \in [seq t.1 | t <- p] by move: Hm; apply: contraR => H; rewrite -[coeff p m]/(cf p m) coef_out. case/mapP=> s Hs ->. rewrite /d. exact: leq_bigmax_seq.
Qed.
(* split_by_degree: the homogeneous parts *)
Theorem C29_split_by_degree p : wf p -> let h := mp_split_by_degree p in
  uniq [seq x.1 | x <- h] /\ (forall d q, (d, q) \in h -> q <> [::] /\ wf q /\ all (fun t => total_degree t.1 == d) q) /\
  forall m, coeff p m = \sum_(x <- h) coeff x.2 m.
Proof.
  move=> Hp. set h := mp_split_by_degree p.
  have L : forall (h0 : seq (nat * poly)), uniq [seq x.1 | x <- h0] -> let h := List.fold_left (fun h t => push_at (mono_degree t.1) t h) p h0 in
     uniq [seq x.1 | x <- h] /\ forall d q, (d, q) \in h -> (exists2 q0, (d, q0) \in h0 & q = q0 ++ [seq t <- p | total_degree t.1 == d]) \/ d \notin [seq x.1 | x <- h0] /\ q = [seq t <- p | total_degree t.1 == d] /\ q <> [::].
  { elim: p {Hp h} => [|t p IH] h0 U0 /=; first by split=> // d q H; left; exists q => //; rewrite cats0.
    rewrite mono_degreeE -[(\sum_(x <- t.1) x.2)%N]/(total_degree t.1). set e := total_degree t.1.
    have K (h1 : seq (nat * poly)) : [seq x.1 | x <- push_at e t h1] = if e \in [seq x.1 | x <- h1] then [seq x.1 | x <- h1] else rcons [seq x.1 | x <- h1] e.
    { elim: h1 => //= -[d' l] h1 IH1. rewrite eqbE inE. case: eqP => //= _. rewrite IH1. by case: ifP. }
    have M (h1 : seq (nat * poly)) d q : uniq [seq x.1 | x <- h1] -> (d, q) \in push_at e t h1 -> d = e /\ ((exists2 q0, (d, q0) \in h1 & q = q0 ++ [:: t]) \/ e \notin [seq x.1 | x <- h1] /\ q = [:: t]) \/ d <> e /\ (d, q) \in h1.
    { elim: h1 => [|[d' l] h1 IH1] /=; first by rewrite inE => _ /eqP[-> ->]; left; split=> //; right. case/andP=> Nd Ud. rewrite eqbE. case: (e =P d') => [Ed|Ne].
      - rewrite -Ed inE => /orP[/eqP[-> ->]|H]; first by left; split=> //; left; exists l; rewrite ?mem_head. right. split; last by rewrite inE H orbT. move=> E. move: Nd => /negP. apply. rewrite -Ed -E. exact: (map_f fst H).
      - rewrite inE => /orP[/eqP[-> ->]|H]; first by right; split; [move=> E; case: Ne; rewrite E|rewrite mem_head]. have [[-> [[q0 H0 ->]|[H0 ->]]]|[H1 H2]] := IH1 Ud H.
        + left. split=> //. left. exists q0 => //. by rewrite inE H0 orbT.
        + left. split=> //. right. split=> //. rewrite inE negb_or H0 andbT. exact/eqP.
        + right. split=> //. by rewrite inE H2 orbT. }
    have U1 : uniq [seq x.1 | x <- push_at e t h0] by rewrite K; case: ifP => // N; rewrite rcons_uniq N.
    have [U2 H2] := IH _ U1. split=> // d q /H2 [[q0 H0 ->]|[N [Eq Nq]]].
    - have [[-> [[q1 H1 ->]|[H1 ->]]]|[N1 H1]] := M _ _ _ U0 H0.
      + left. exists q1 => //. by rewrite eqxx -catA.
      + right. by rewrite eqxx.
      + left. exists q0 => //. by case: eqP => // E; case: N1.
    - have Nd : d != e. { apply/eqP => E. move: N. rewrite E K. case: ifP => [->|_] //. by rewrite mem_rcons mem_head. }
      right. split; last by rewrite eq_sym (negbTE Nd). move: N. rewrite K. case: ifP => // _. by rewrite mem_rcons inE negb_or => /andP[]. }
  have [Uh Hh] := L [::] isT. rewrite -/h in Uh Hh. have {}Hh d q : (d, q) \in h -> q = [seq t <- p | total_degree t.1 == d] /\ q <> [::] by move/Hh => [[]|[_ []]].
  split=> //. split.
  - move=> d q /Hh [-> Nq]. split=> //. split; last by apply/allP => t; rewrite mem_filter => /andP[].
    case/andP: Hp => H1 H2. rewrite /wf (subseq_uniq _ H2) ?andbT; first by apply/allP => t; rewrite mem_filter => /andP[_ /(allP H1)]. apply: map_subseq. exact: filter_subseq.
  - move=> m.
    have D : forall t, t \in p -> total_degree t.1 \in [seq x.1 | x <- h].
    { rewrite /h /mp_split_by_degree => t Ht. have G : forall (q : poly) (h0 : seq (nat * poly)) d, (d \in [seq x.1 | x <- h0]) || has (fun t => total_degree t.1 == d) q -> d \in [seq x.1 | x <- List.fold_left (fun h t => push_at (mono_degree t.1) t h) q h0].
      { elim=> [|u q IH] h0 d /=; first by rewrite orbF. move=> H. apply: IH. rewrite mono_degreeE -[(\sum_(x <- u.1) x.2)%N]/(total_degree u.1).
        have -> : (d \in [seq x.1 | x <- push_at (total_degree u.1) u h0]) = (d \in [seq x.1 | x <- h0]) || (total_degree u.1 == d).
        { elim: h0 {H} => [|[d' l] h0 IH0] /=; first by rewrite inE eq_sym. rewrite eqbE. case: eqP => [->|N] /=; rewrite !inE; first by rewrite [d' == d]eq_sym; case: eqP => //; rewrite ?orbF. by rewrite IH0 orbA. }
        by rewrite -orbA. }
      apply: G. apply/orP. right. apply/hasP. by exists t. }
    rewrite (eq_big_seq (fun x : nat * poly => \sum_(t <- p) (if (total_degree t.1 == x.1) && (t.1 == m) then t.2 else 0))); last first.
    { move=> [d q] /Hh [/= -> _]. rewrite /coeff big_filter_cond big_mkcond. by []. }
    rewrite exchange_big /= /coeff [LHS]big_mkcond /=. apply: eq_big_seq => t Ht. case: eqP => [E|N]; last by rewrite big1 // => x _; rewrite andbF.
    have /mapP[x Hx Ex] := D t Ht. rewrite (big_rem x Hx) /= Ex eqxx /= big1_seq ?addr0 // => y /= Hy. rewrite andbT. case: eqP => // Exy. move: Uh. rewrite (perm_uniq (perm_map _ (perm_to_rem Hx))) /= => /andP[/negP []]. rewrite Exy. by rewrite (map_f fst Hy).
Qed.

Lemma lex_sortedE (l : seq mon) : lex_sorted l = sorted lex_le l.
Proof. elim: l => //= x l. by case: l => [|y l] //= ->. Qed.
(* check_invariants accepts every non-empty normal polynomial *)
Theorem C29_check p : normal p -> p <> [::] -> mp_check p = Some true.
Proof.
  move=> Hp Np. have [/and3P[_ S _] C] := (normalE p).1 Hp. rewrite /mp_check. have -> : forallb (fun t : mon * R => mono_check t.1) p.
  { rewrite -[forallb _ _]/(all _ _). apply: sub_all C => t H. by rewrite C29_mono_check mono_okE. }
  case: p Np {Hp} S {C} => // t p _ S. by rewrite lex_sortedE [sorted _ _]S.
Qed.
(* homogenize by a variable that does not occur: all terms get the degree of p, and at v = 1 the value is that of p *)
Theorem C29_homogenize p v : wf p -> ~~ occurs v p -> @mp_equal O p (@mp_zero O) = false ->
  match mp_degree p, @mp_homogenize O p v with
  | Some d, Some h => wf h /\ all (fun t => total_degree t.1 == d) h /\
      forall (A : comRingType) (f : {rmorphism R -> A}) th, th v = 1 -> value f th h = value f th p
  | _, _ => False
  end.
Proof.
  move=> Hp Nv Nz. rewrite /mp_homogenize Nz degree_list. case E: p => [|t0 p']; first by rewrite E mp_equalE ?eqxx in Nz.
  rewrite -E. set d := (\max_(t <- p) _)%N.
  set F := fun t : mon * R => (mm t.1 [:: (v, d - total_degree t.1)%N], t.2).
  have Le t : t \in p -> (total_degree t.1 <= d)%N by move=> Ht; rewrite /d; exact: leq_bigmax_seq.
  have C t : t \in p -> mcan t.1 by exact: (allP (wf_mcan Hp)).
  have Nvt t : t \in p -> v \notin [seq x.1 | x <- t.1]. { move=> Ht. apply/negP => /mapP[x Hx Ex]. move/negP: Nv. apply. apply/hasP. exists t => //. apply/hasP. exists x => //. by rewrite Ex. }
  have M q : {subset q <= p} -> mapM (fun t : mon * R => do m <- mono_homogenize t.1 d v; Some (m, t.2)) q = Some [seq F t | t <- q].
  { elim: q => [|t q IH] Sq //=.
    have Ht : t \in p by apply: Sq; rewrite mem_head. rewrite /mono_homogenize mono_degreeE -[(\sum_(x <- t.1) x.2)%N]/(total_degree t.1) lebE Le //.
    rewrite -/(mapM _ q) IH; last by move=> u Hu; apply: Sq; rewrite inE Hu orbT. rewrite mono_newE; first by []. rewrite [map _ _](_ : _ = rcons [seq x.1 | x <- t.1] v); last by rewrite -cats1 map_cat.
    rewrite rcons_uniq Nvt //. by case/and3P: (C t Ht). }
  rewrite -[X in match X with Some _ => _ | None => _ end]/(do ts <- mapM (fun t : mon * R => do m <- mono_homogenize t.1 d v; Some (m, t.2)) p; do c <- mp_check (mp_new ts); assert! c; Some (mp_new ts)). rewrite M //. set q := [seq F t | t <- p].
  have P : perm_eq (mp_new q) q by exact: mp_new_perm.
  have Cq : all (fun t => mcan t.1) q by rewrite all_map; apply/allP => t _; exact: mcan_mm.
  have Uq : uniq [seq t.1 | t <- q].
  { rewrite -map_comp. have -> : [seq (fst \o F) i | i <- p] = [seq mm m [:: (v, d - total_degree m)%N] | m <- [seq t.1 | t <- p]] by rewrite -map_comp; apply: eq_map.
    rewrite map_inj_in_uniq ?wf_uniq // => _ _ /mapP[t Ht ->] /mapP[u Hu ->] Em. apply: mcan_ext => [||w]; try exact: C.
    have := congr1 (fun m => expo m w) Em. rewrite !expo_mm !coef_cons !coef_nil /=. case: eqP => [<- _|_]; last by rewrite !addn0. by rewrite !coef_out // Nvt. }
  have Wh : wf (mp_new q). { rewrite wfE /wfb (perm_all _ P) Cq /=. by rewrite (perm_uniq (perm_map _ P)). }
  have CK : mp_check (mp_new q) = Some true.
  { rewrite /mp_check. have -> : forallb (fun t : mon * R => mono_check t.1) (mp_new q). { rewrite -[forallb _ _]/(all _ _). apply/allP => t Ht. rewrite C29_mono_check. case/andP: Wh => /allP H _. exact: H. }
    have S : sorted lex_le [seq t.1 | t <- mp_new q] by rewrite /mp_new (map_isort fst lex_le); apply: sorted_isort lexle_total _.
    move: S. have : size (mp_new q) = size p by rewrite (perm_size P) size_map. rewrite E. case: (mp_new q) => [|t q'] // _ S. by rewrite lex_sortedE [sorted _ _]S. }
  rewrite -[X in match X with Some _ => _ | None => _ end]/(do c <- mp_check (mp_new q); assert! c; Some (mp_new q)) CK /=.
  split=> //. split.
  - rewrite (perm_all _ P) all_map. apply/allP => t Ht /=. rewrite degree_mm /total_degree big_seq1 /= -[(\sum_(x <- t.1) x.2)%N]/(total_degree t.1). have := Le t Ht. lia.
  - move=> A f th Hv. rewrite !valueE (evl_perm _ _ P) /evl big_map. apply: eq_bigr => t _ /=. congr (_ * _). rewrite mev_mm [mev th [:: _]]/mev big_seq1 /= Hv expr1n mulr1. by [].
Qed.
(* expand: coefficients free of v, and p is the polynomial in v with these coefficients *)
Theorem C29_expand p v : wf p -> let cs := @mp_expand O p v in
  (forall c, c \in cs -> normal c /\ ~~ occurs v c /\ forall u, occurs u c -> occurs u p) /\
  forall (A : comRingType) (f : {rmorphism R -> A}) th, value f th p = \sum_(i < size cs) value f th (nth [::] cs i) * th v ^+ i.
Proof.
  move=> Hp cs. have C := wf_mcan Hp. set ok : pred nat := fun u => (u == v) || occurs u p.
  have Hok : all (fun t => okm ok t.1) p. { apply/allP => t Ht. rewrite /okm (allP C _ Ht) /=. apply/allP => x Hx. rewrite /ok. apply/orP. right. apply/hasP. exists t => //. apply/hasP. by exists x. }
  have Hv : ok v by rewrite /ok eqxx. have [L [EL PL]] := expandE Hv Hok. rewrite /cs EL. split.
  - move=> _ /mapP[x _ ->]. split. { apply/normalE. split; first exact: mv_can. apply: sub_all (mv_ok x) => t. by case/andP. }
    have Ox t y : t \in (x : poly) -> y \in t.1 -> ok1 ok v y.1 by move=> Ht Hy; case/andP: (allP (mv_ok x) t Ht) => _ /allP; apply.
    split. { apply/negP => /hasP[t Ht /hasP[y Hy /eqP Ey]]. have := Ox t y Ht Hy. by rewrite /ok1 Ey eqxx andbF. }
    move=> u /hasP[t Ht /hasP[y Hy /eqP <-]]. have := Ox t y Ht Hy. rewrite /ok1 /ok. by case: (y.1 == v); rewrite ?andbF ?andbT.
  - move=> A f th. rewrite size_map valueE -evl_nf -(mv_ofl Hok) -[evl _ _ _]/(evk f th (ofl ok p)). rewrite -[ofl ok p](psiK v) -PL /evp /horner_morph.
    rewrite (horner_coef_wide (n := size L)); last first. { apply: leq_trans (size_poly _ _) _. exact: size_Poly. }
    rewrite rmorph_sum /=. apply: eq_bigr => i _. rewrite rmorphM rmorphX /=. congr (_ * _ ^+ _).
    + rewrite coef_map coef_Poly (nth_map 0) // valueE /evk. by rewrite incl_mv // => u; case/andP.
    + rewrite /evk kmE ?ok_vmon // evl_nf /evl big_seq1 rmorph1 mul1r /mev big_seq1. by [].
Qed.
(* apply_map by a ring homomorphism *)
Theorem C29_apply_map (S : comRingType) (g : {rmorphism R -> S}) p : wf p -> wf (mp_apply_map g p) /\
  (forall m, coeff (mp_apply_map g p) m = g (coeff p m)) /\
  forall (A : comRingType) (f : {rmorphism S -> A}) th, value f th (mp_apply_map g p) = value [rmorphism of f \o g] th p.
Proof.
  move=> Hp. split; last split.
  - rewrite /wf /mp_apply_map all_map -map_comp. exact: Hp.
  - move=> m. rewrite /coeff /mp_apply_map big_map rmorph_sum. by [].
  - move=> A f th. by rewrite /value /mp_apply_map big_map.
Qed.
(* apply_map_vars: renaming; defined when every variable that occurs has an image, injective renamings keep polynomials well formed *)
Theorem C29_apply_map_vars (g : nat -> option nat) p : wf p ->
  ((exists2 v, occurs v p & g v = None) -> mp_apply_map_vars g p = None) /\
  forall h : nat -> nat, (forall v, occurs v p -> g v = Some (h v)) -> match mp_apply_map_vars g p with
  | Some q => (forall (A : comRingType) (f : {rmorphism R -> A}) th, value f th q = value f (fun v => th (h v)) p) /\
              ((forall u v, occurs u p -> occurs v p -> h u = h v -> u = v) -> wf q)
  | None => False end.
Proof.
  move=> Hp. split.
  - case=> v Hv Ev. rewrite /mp_apply_map_vars. elim: p Hv {Hp} => //= t p IH /orP[|/IH ->].
    + have N : has (fun x => x.1 == v) t.1 -> map_vars g t.1 = None. { elim: t.1 => //= -[w k] m IHm /= /orP[/eqP ->|/IHm ->]; first by rewrite Ev. by case: (g w). } by move/N => ->.
    + by case: (map_vars g t.1).
  - move=> h Hh. set G := fun m : mon => [seq (h x.1, x.2) | x <- m].
    have E : mp_apply_map_vars g p = Some [seq (mono_new (G t.1), t.2) | t <- p].
    { rewrite /mp_apply_map_vars. elim: p Hh {Hp} => //= t p IH Hh. have -> : map_vars g t.1 = Some (G t.1).
      { have : forall v, has (fun x => x.1 == v) t.1 -> g v = Some (h v) by move=> v Hv; apply: Hh; rewrite /= Hv. elim: t.1 => //= -[w k] m IHm H. rewrite H ?eqxx // IHm // => v Hv. by apply: H; rewrite Hv orbT. }
      rewrite -/(mapM _ p). rewrite IH // => v Hv. apply: Hh. rewrite /= -/(occurs v p) Hv. by rewrite orbT. }
    rewrite E. split.
    + move=> A f th. rewrite /value big_map. apply: eq_bigr => t _ /=. congr (_ * _). rewrite -[LHS]/(mev th (mono_new (G t.1))). rewrite /mev (perm_big _ (mono_new_perm _)) /= big_filter /G big_map /= big_mkcond. apply: eq_bigr => x _. case: eqP => //= ->. by rewrite expr0.
    + move=> Inj. rewrite wfE /wfb all_map -map_comp.
      have Oc t x : t \in p -> x \in t.1 -> occurs x.1 p by move=> Ht Hx; apply/hasP; exists t => //; apply/hasP; exists x.
      have UG t : t \in p -> uniq [seq x.1 | x <- G t.1].
      { move=> Ht. rewrite /G -map_comp. have -> : [seq (fst \o (fun x : nat * nat => (h x.1, x.2))) i | i <- t.1] = [seq h v | v <- [seq x.1 | x <- t.1]] by rewrite -map_comp; apply: eq_map.
        rewrite map_inj_in_uniq; first by case/and3P: (allP (wf_mcan Hp) t Ht). move=> _ _ /mapP[x Hx ->] /mapP[y Hy ->]. apply: Inj; exact: Oc Ht _. }
      apply/andP. split. { apply/allP => t Ht /=. apply: mono_new_can. exact: UG. }
      have -> : [seq (fst \o (fun t : mon * R => (mono_new (G t.1), t.2))) i | i <- p] = [seq mono_new (G m) | m <- [seq t.1 | t <- p]] by rewrite -map_comp; apply: eq_map.
      rewrite map_inj_in_uniq ?wf_uniq // => _ _ /mapP[t Ht ->] /mapP[u Hu ->] Em. have Ct := allP (wf_mcan Hp) t Ht. have Cu := allP (wf_mcan Hp) u Hu.
      have EG s w : s \in p -> occurs w p -> expo (G s.1) (h w) = expo s.1 w.
      { move=> Hs Hw. rewrite /expo /coef /G big_map /=. rewrite [LHS]big_seq_cond [RHS]big_seq_cond. apply: eq_bigl => x. case Hx: (x \in s.1) => //=. apply/eqP/eqP => [|->] //. apply: Inj => //. exact: Oc Hs Hx. }
      apply: mcan_ext => // w. case Hw: (occurs w p); first by rewrite -(EG t) // -(EG u) // -expo_new Em expo_new.
      have Z s : s \in p -> expo s.1 w = 0%N. { move=> Hs. apply: coef_out. apply/negP => /mapP[x Hx Ex]. by move: Hw; rewrite Ex (Oc s x). } by rewrite !Z.
Qed.
End P.
Print Assumptions C29_free_vars.
Print Assumptions C29_evaluate.
Print Assumptions C29_value_occurs.
Print Assumptions C29_evaluate_var_zero.
Print Assumptions C29_has_all_vars_parts.
Print Assumptions C29_as_constant.
Print Assumptions C29_degree.
Print Assumptions C29_split_by_degree.
Print Assumptions C29_check.
Print Assumptions C29_homogenize.
Print Assumptions C29_expand.
Print Assumptions C29_apply_map.
Print Assumptions C29_apply_map_vars.

Notation ZO := (mc_ops Z_comRingType).
(* x^2 y + 3 y + z in variables 0, 1, 2 *)
Definition pz : seq (mon * Z_comRingType) := [:: ([:: (0, 2); (1, 1)]%N, Zpos 1); ([:: (1, 1)]%N, Zpos 3); ([:: (2, 1)]%N, Zpos 1)].
Example ex_pz : wf pz /\ mp_degree pz = Some 3%N /\ @mp_evaluate ZO (fun v => Some (Z.of_nat v.+1)) pz = Some (Zpos 11) /\ @mp_evaluate ZO (fun v => None) pz = None /\
  size (mp_split_by_degree pz) = 2%N /\ occurs 3%N pz = false /\ @mp_equal ZO pz [::] = false /\
  @mp_homogenize ZO pz 3%N = Some [:: ([:: (0, 2); (1, 1)]%N, Zpos 1); ([:: (1, 1); (3, 2)]%N, Zpos 3); ([:: (2, 1); (3, 2)]%N, Zpos 1)] /\
  @mp_expand ZO pz 1%N = [:: [:: ([:: (2, 1)]%N, Zpos 1)]; [:: ([:: (0, 2)]%N, Zpos 1); ([::], Zpos 3)]] /\ mp_check pz = Some true /\
  mp_apply_map_vars (fun v => Some (2 - v)%N) pz = Some [:: ([:: (1, 1); (2, 2)]%N, Zpos 1); ([:: (1, 1)]%N, Zpos 3); ([:: (0, 1)]%N, Zpos 1)].
Proof. by vm_compute. Qed.
Lemma normal_pz : normal pz.
Proof. split=> //=. repeat split=> //; move=> b; rewrite !inE; first case/orP; (try by []); move/eqP => ->; [exists 0%N|exists 0%N|exists 1%N]; split; by [case=> [|[|u]]; rewrite /power !(big_cons, big_nil)|rewrite /power !(big_cons, big_nil)]. Qed.
