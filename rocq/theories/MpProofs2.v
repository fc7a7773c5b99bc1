(* Expansion in one variable and division. *)
From Coq Require Import List Arith NArith Bool.
From mathcomp Require Import all_ssreflect all_algebra.
From mathcomp Require Import zify.
From Coq Require Import Lia.
From Verif Require Import RingSpec RingModel PermModel MatModel MatSpec PolyModel PolyProofs PolyProofs2 PolyHom MpModel FinSupp MpRing MpRing2 MpRing3 MpRing4 MpProofs.
Close Scope rs_scope.
Set Implicit Arguments. Unset Strict Implicit. Unset Printing Implicit Defensive.
Import GRing.Theory.
Local Open Scope ring_scope.

Section P.
Variable R : comRingType.
Notation O := (mc_ops R).
Notation tm := (seq (mon * R)).
Section Of.
Variable ok : pred nat.
Notation K := (mpoly R ok).
Definition ofl (l : tm) : K := \sum_(t <- l) km ok t.1 t.2.
Lemma cf_ofl l k : all (fun t => okm ok t.1) l -> cf (ofl l) k = cf l k.
Proof.
  elim: l => [|t l IH] /=; first by rewrite /ofl big_nil cf0 ?coef_nil. case/andP=> H1 H2. rewrite /ofl big_cons cfD IH // cf_km // coef_cons. case: eqP => _ //=. by rewrite add0r.
Qed.
Lemma mv_ofl l : all (fun t => okm ok t.1) l -> mv (ofl l) = rnf l.
Proof. move=> H. apply: tcan_ext; [exact: mv_can|exact: tcan_nf|]. move=> k. by rewrite cf_ofl // cf_nf. Qed.
Lemma ofl_mv (x : K) : ofl x = x. Proof. by rewrite [RHS]km_sum. Qed.
Lemma mv_hom : ops_hom (mc_ops [comRingType of K]) (mp_ops O) (@mv R ok).
Proof.
  split=> [x y||| x y|x y|x].
  - by rewrite [RHS]mv_eq.
  - by [].
  - by rewrite -[LHS]mv_one.
  - by rewrite [RHS]mv_add.
  - by rewrite [RHS]mv_mul.
  - by rewrite [RHS]mv_neg.
Qed.
End Of.
Section Exp.
Variables (ok : pred nat) (v : nat).
Hypothesis Hv : ok v.
Notation K := (mpoly R ok).
Notation K' := (mpoly R (ok1 ok v)).
Lemma upd_atE k (q : tm) (x : K') (L : seq K') : (k < size L)%N -> uniq [seq t.1 | t <- q] -> rnf q = mv x ->
  exists L', @upd_at O k q (map (@mv R _) L) = map (@mv R _) L' /\ Poly L' = Poly L + x%:P * 'X^k.
Proof.
  move=> H Uq E. have A (c : K') : @mp_add O c q = mv (c + x).
  { rewrite mp_addE ?U //. apply: tcan_ext; [exact: tcan_nf|exact: mv_can|]. move=> m. by rewrite cf_nf cfD coef_cat -[mv x]E cf_nf. }
  elim: L k H => [|c L IH] [|k] //= H.
  - exists (c + x :: L). rewrite /= A. split=> //. by rewrite !cons_poly_def expr0 mulr1 polyCD addrA addrAC.
  - have [L' [-> E2]] := IH k H. exists (c :: L'). split=> //=. rewrite !cons_poly_def E2 exprSr mulrDl -addrA [_ * 'X + c%:P]addrC. by rewrite !addrA mulrA.
Qed.
Lemma expandE (p : tm) : all (fun t => okm ok t.1) p -> exists L : seq K', @mp_expand O p v = map (@mv R _) L /\ Poly L = psi v (ofl ok p).
Proof.
  move=> Hp. have -> : psi v (ofl ok p) = Poly ([::] : seq K') + \sum_(t <- p) (km (ok1 ok v) (rmv v t.1) t.2)%:P * 'X^(expo t.1 v).
  { rewrite add0r /ofl rmorph_sum /=. rewrite [LHS]big_seq [RHS]big_seq. apply: eq_bigr => t Ht. apply: psi_km => //. exact: (allP Hp). }
  rewrite /mp_expand -[X in List.fold_left _ _ X]/(map (@mv R (ok1 ok v)) [::]). move: ([::] : seq K') => L0. elim: p Hp L0 => [|t p IH] /= Hp L0; first by exists L0; rewrite big_nil addr0.
  case/andP: Hp => Ht Hp. have Ct : mcan t.1 by case/andP: Ht. set k := get_var_pow _ _. have Ek : k = expo t.1 v by rewrite /k get_var_powE.
  set L1 := L0 ++ nseq (k.+1 - size L0) 0. have EL : [seq mv i | i <- L0] ++ List.repeat (@mp_zero O) (k.+1 - length [seq mv i | i <- L0]) = [seq mv i | i <- L1].
  { rewrite /L1 map_cat. congr (_ ++ _). rewrite [length _]size_map. elim: (k.+1 - size L0)%N => //= n ->. by []. }
  set q := [:: (mono_new _, _)]. have Er : mono_new (List.filter (fun x => negb (Nat.eqb x.1 v)) t.1) = rmv v t.1.
  { have -> : List.filter (fun x => negb (Nat.eqb x.1 v)) t.1 = rmv v t.1 by apply: eq_filter => x; rewrite eqbE. apply: mono_new_id. exact: rmv_can. }
  have [|||L2 [E1 E2]] := @upd_atE k q (km (ok1 ok v) (rmv v t.1) t.2) L1.
  - rewrite size_cat size_nseq. lia.
  - by [].
  - by rewrite kmE ?rmv_ok // /q Er.
  - have [L [E3 E4]] := IH Hp L2. exists L. split.
    + rewrite -E3 -E1 -EL. by [].
    + rewrite E4 E2 big_cons -Ek addrA. congr (_ + _ + _). rewrite /L1. apply/polyP => i. rewrite !coef_Poly nth_cat nth_nseq if_same. case: ltnP => // H. by rewrite nth_default.
Qed.
Lemma hom_evaluate A B (phi : T A -> T B) (H : ops_hom A B phi) (c : list (T A)) x : phi (p_evaluate c x) = p_evaluate (List.map phi c) (phi x).
Proof.
  rewrite /p_evaluate -List.map_rev. rewrite -(h_0 _ _ _ H). elim: (List.rev c) (@r0 A) => [|y l IH] s //=. by rewrite IH (h_add _ _ _ H) (h_mul _ _ _ H).
Qed.
Lemma var_mv : @mp_var O v = mv (kvar R ok v).
Proof. rewrite kmE ?ok_vmon //. rewrite rnf_id; first by []. by rewrite /tcan /canon /= oner_eq0. Qed.
Lemma eval_evp (L : seq K') : @p_evaluate (mp_ops O) (map (@mv R _) L) (@mp_var O v) = mv (evp (Poly L)).
Proof.
  have -> : map (@mv R (ok1 ok v)) L = map (@mv R ok) (map (@incl R (ok1 ok v) ok) L) by rewrite -map_comp; apply: eq_map => x /=; rewrite incl_mv //; move=> u; exact: ok1_sub.
  rewrite var_mv -[RHS]/(_ _). rewrite -(hom_evaluate (mv_hom ok)). congr mv. rewrite p_evaluateE.
  rewrite /evp /horner_morph. congr (_.[_]). apply/polyP => i. rewrite coef_map !coef_Poly. case: (ltnP i (size L)) => H; first by rewrite (nth_map 0).
  by rewrite !nth_default ?size_map // raddf0.
Qed.
End Exp.
End P.

Section Div.
Variable R : idomainType.
Notation O := (mc_ops R).
Notation tm := (seq (mon * R)).
Variable div : div_op O.
Hypothesis D : idom_laws O div.
Variable pick : list nat -> nat.
Hypothesis pickP : forall l, l <> [::] -> pick l \in l.
Variable dflt : tm -> tm -> divres tm.
Notation mdiv := (@mp_div O div pick dflt).
(* what the division returns on elements of the ring *)
Definition divspec (ok : pred nat) (x y : mpoly R ok) (r : option (divres tm)) : Prop :=
  match r with
  | Some DivideByZero => y = 0
  | Some (DivOk l) => y != 0 /\ exists q : mpoly R ok, l = mv q /\ x = q * y
  | Some NotDivisible => y != 0 /\ forall q : mpoly R ok, x <> q * y
  | None => False
  end.
Definition kdiv (ok : pred nat) (fuel : nat) : div_op (mc_ops [comRingType of mpoly R ok]) := fun x y : mpoly R ok =>
  match mdiv fuel x y with
  | Some (DivOk l) => match insub l : option (mpoly R ok) with Some q => DivOk q | None => NotDivisible end
  | Some DivideByZero => DivideByZero
  | _ => NotDivisible
  end.
Lemma kdiv_hom ok fuel : (forall x y : mpoly R ok, divspec x y (mdiv fuel x y)) ->
  idom_laws (mc_ops [comRingType of mpoly R ok]) (@kdiv ok fuel) /\
  forall x y : mpoly R ok, dmap (@mv R ok) (@kdiv ok fuel x y) = match mdiv fuel x y with Some r => r | None => dflt x y end.
Proof.
  move=> H. have H2 (x y : mpoly R ok) : dmap (@mv R ok) (@kdiv ok fuel x y) = match mdiv fuel x y with Some r => r | None => dflt x y end.
  { rewrite /kdiv. have := H x y. case: (mdiv fuel x y) => [[l||]|] //= [_ [q [-> _]]]. by rewrite valK. }
  split=> //. split.
  - exact: mc_ring.
  - exact: (negbTE (@oner_neq0 [ringType of mpoly R ok])).
  - move=> x y /= /eqP E. move: (k_idom E) => /orP[/eqP ->|/eqP ->]; by [left; apply/eqP|right; apply/eqP].
  - move=> x y. rewrite /kdiv. have := H x y. case: (mdiv fuel x y) => [[l||]|] //=.
    + move=> [Hy [q [-> _]]]. rewrite valK. split=> // /eqP E. by rewrite E eqxx in Hy.
    + move=> E. split=> [_|_] //. rewrite E. exact: (eqxx (0 : mpoly R ok)).
    + move=> [Hy _]. split=> // /eqP E. by rewrite E eqxx in Hy.
  - move=> x y q. rewrite /kdiv. have := H x y. case: (mdiv fuel x y) => [[l||]|] //= [_ [q' [-> E]]]. rewrite valK => -[<-]. by apply/eqP.
  - move=> x y. rewrite /kdiv. have := H x y. case: (mdiv fuel x y) => [[l||]|] //=.
    + move=> [_ [q [-> _]]]. by rewrite valK.
    + move=> [_ N] _ [q /= /eqP E]. apply: (N q). by rewrite E mulrC.
Qed.
Lemma mem_mono_vars (m : mon) u : (u \in mono_free_vars m) = (u \in [seq x.1 | x <- m]).
Proof. by rewrite /mono_free_vars mem_hset. Qed.
Lemma mem_vars_p (p : tm) u : (u \in mp_free_vars p) = has (fun t => u \in [seq x.1 | x <- t.1]) p.
Proof. rewrite /mp_free_vars mem_hset. elim: p => //= t p IH. by rewrite mem_cat IH mem_mono_vars. Qed.
Lemma novars_const ok (x : mpoly R ok) : (forall u, u \notin mp_free_vars (x : tm)) -> mv x = [::] \/ exists2 c, c != 0 & mv x = [:: ([::], c)].
Proof.
  move=> H. have N t : t \in (x : tm) -> t.1 = [::].
  { move=> Ht. case E: t.1 => [|y m] //. have /negP := H y.1. case. rewrite mem_vars_p. apply/hasP. exists t => //. by rewrite E mem_head. }
  have := mv_can x. case: (mv x) N => [|t [|t' l]] N; first by left.
  - right. exists t.2; last by rewrite -(N t) ?mem_head //; case: (t). case/and3P: H0 => _ _. by rewrite /= andbT.
  - case/and3P=> /= /andP[]. by rewrite (N t) ?mem_head // (N t') ?inE ?eqxx ?orbT.
Qed.
Lemma mv_const ok (c : R) : c != 0 -> mv (kconst ok c) = [:: ([::], c)].
Proof. move=> H. rewrite /= rnf_id //. by rewrite /tcan /canon /= H. Qed.
Lemma kconst0 ok (c : R) : (kconst ok c == 0) = (c == 0).
Proof. apply/eqP/eqP => [E|->]; last by rewrite rmorph0. have := cfC ok c [::]. by rewrite E cf0 eqxx. Qed.
Lemma div_step ok fuel (x y : tm) : all (fun t => okm ok t.1) x -> all (fun t => okm ok t.1) y ->
  let vars := hset Nat.eqb (mp_free_vars x ++ mp_free_vars y) in vars <> [::] ->
  (forall (x y : mpoly R (ok1 ok (pick vars))), divspec x y (mdiv fuel x y)) -> divspec (ofl ok x) (ofl ok y) (mdiv fuel.+1 x y).
Proof.
  move=> Hx Hy vars Nv IH. set v := pick vars. have Hv : ok v.
  { have := pickP Nv. rewrite -/v mem_hset mem_cat !mem_vars_p => /orP[] /hasP[t Ht /mapP[z Hz ->]].
    - have /andP[_ /allP] := allP Hx t Ht. by apply.
    - have /andP[_ /allP] := allP Hy t Ht. by apply. }
  have [L1 HL] := kdiv_hom IH. have [X [EX PX]] := expandE Hv Hx. have [Y [EY PY]] := expandE Hv Hy.
  have -> : mdiv fuel.+1 x y = match @p_div (mp_ops O) (fun x y => match mdiv fuel x y with Some r => r | None => dflt x y end) (@mp_expand O x v) (@mp_expand O y v) with
    | Some (DivOk c) => Some (DivOk (@p_evaluate (mp_ops O) c (@mp_var O v))) | Some DivideByZero => Some DivideByZero | Some NotDivisible => Some NotDivisible | None => None end.
  { rewrite /v /vars. move: Nv. rewrite /vars. cbn [mp_div]. case: (hset Nat.eqb (mp_free_vars x ++ mp_free_vars y)) => // w ws _. by case: p_div => [[c||]|]. }
  rewrite EX EY -[map _ X]/(List.map _ X) -[map _ Y]/(List.map _ Y). rewrite -(hom_p_div _ (@mv_hom R _) _ _ HL).
  have := p_div_ok L1 X Y. case: p_div => [[c||]|] //=.
  - rewrite PX PY => -[H1 H2]. rewrite [List.map _ _]/(map _ c) eval_evp //. split.
    + apply/eqP => E. by rewrite E rmorph0 eqxx in H1.
    + exists (evp (Poly c)). split=> //. rewrite -[LHS](psiK v) H2 rmorphM. by rewrite /= psiK.
  - rewrite PY => E. apply: (psi_inj (v := v)). by rewrite E rmorph0.
  - rewrite PX PY => -[H1 H2]. split; first by apply/eqP => E; rewrite E rmorph0 eqxx in H1. move=> q E. apply: (H2 (psi v q)). by rewrite E rmorphM.
Qed.
Lemma div_base ok fuel (x y : mpoly R ok) : hset Nat.eqb (mp_free_vars (x : tm) ++ mp_free_vars (y : tm)) = [::] -> divspec x y (mdiv fuel.+1 x y).
Proof.
  move=> E. have N u : u \notin mp_free_vars (x : tm) /\ u \notin mp_free_vars (y : tm).
  { have := mem_hset (mp_free_vars (x : tm) ++ mp_free_vars (y : tm)) u. rewrite E mem_cat => /esym/negbT. rewrite negb_or. by case/andP. }
  cbn [mp_div]. rewrite E.
  have Cx : mv x = [::] -> x = 0 by move=> H; apply: val_inj. have Cy : mv y = [::] -> y = 0 by move=> H; apply: val_inj.
  have C z (c : R) : c != 0 -> mv z = [:: ([::], c)] -> z = kconst ok c by move=> H1 H2; apply: val_inj; rewrite [RHS](mv_const ok H1).
  have [Hx|[a Ha Hx]] := novars_const (fun u => (N u).1); have [Hy|[b Hb Hy]] := novars_const (fun u => (N u).2); rewrite Hx Hy /=.
  - exact: Cy.
  - split; first by rewrite (C _ _ Hb Hy) kconst0. exists 0. split=> //. by rewrite mul0r Cx.
  - exact: Cy.
  - have := divP D a b. case: div => [q||] //=.
    + move=> [E1 _]. split; first by rewrite (C _ _ Hb Hy) kconst0. have Hq : q != 0 by apply/eqP => Q; move: Ha; rewrite E1 Q mul0r eqxx.
      exists (kconst ok q). split; first by rewrite mv_const. by rewrite (C _ _ Ha Hx) (C _ _ Hb Hy) -kcM E1.
    + move=> Z. by rewrite Z eqxx in Hb.
    + move=> [_ H]. split; first by rewrite (C _ _ Hb Hy) kconst0. move=> q Eq. apply: (H (cf q [::])). have := congr1 (fun z : mpoly R ok => cf z [::]) Eq. rewrite (C _ _ Ha Hx) (C _ _ Hb Hy) cfC eqxx => ->.
      rewrite [q * _]mulrC cfM mv_const // big_seq1 /=. rewrite cfE mulr_suml. apply: eq_big_seq => t Ht. rewrite mm1; last by case/andP: (allP (mv_ok q) _ Ht). rewrite [b * _]mulrC. case: eqP => _ //. by rewrite mul0r.
Qed.
Lemma div_ring fuel (ok : pred nat) (S : seq nat) : (forall u, ok u -> u \in S) -> uniq S -> (size S < fuel)%N -> forall x y : mpoly R ok, divspec x y (mdiv fuel x y).
Proof.
  elim: fuel ok S => // fuel IH ok S HS US Hf x y.
  case: (@eqP _ (hset Nat.eqb (mp_free_vars (x : tm) ++ mp_free_vars (y : tm))) [::]) => [E|N]; first exact: div_base.
  rewrite -[x in divspec x]ofl_mv -[y in divspec _ y]ofl_mv. apply: div_step; [exact: mv_ok|exact: mv_ok|by []|].
  set v := pick _. have Hv : ok v.
  { have := pickP N. rewrite -/v mem_hset mem_cat !mem_vars_p => /orP[] /hasP[t Ht /mapP[z Hz ->]].
    - have /andP[_ /allP] := allP (mv_ok x) t Ht. by apply.
    - have /andP[_ /allP] := allP (mv_ok y) t Ht. by apply. }
  move=> x0 y0. have := IH (ok1 ok v) (seq.rem v S). apply; first by move=> u /andP[H1 H2]; rewrite mem_rem_uniq //; apply/andP; split=> //; exact: HS.
  - exact: rem_uniq.
  - rewrite size_rem ?HS //. have : (0 < size S)%N by rewrite lt0n size_eq0; apply/eqP => Z; have := HS _ Hv; rewrite Z. move: Hf. clear. move: (size S) => n. lia.
Qed.
End Div.
