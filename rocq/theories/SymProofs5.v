(* Symmetric polynomials: the reduction to elementary symmetric polynomials. *)
From Coq Require Import List Arith NArith Bool.
From mathcomp Require Import all_ssreflect all_algebra all_fingroup.
From mathcomp Require Import zify.
From Coq Require Import Lia.
From Verif Require Import RingSpec RingModel PermModel MatModel MatSpec PolyModel PolyProofs PolyProofs2 PolyHom SetsModel SetsProps MpModel FinSupp MpRing MpRing2 MpRing3 MpRing4 MpProofs MpProofs2 MpSpec MpProofs3 MpProps MpProps2 MpProps3 SymModel SymRing SymProofs SymProofs2 SymProofs3 SymProofs4.
Close Scope rs_scope.
Set Implicit Arguments. Unset Strict Implicit. Unset Printing Implicit Defensive.
Import GRing.Theory.
Local Open Scope ring_scope.

Section Elv.
Variable R : comRingType.
Notation K := (mpoly R predT).
Notation X := (kvar R predT).
Notation w1 := (fun _ : nat => 1%N).
Implicit Types (x y : K).
Lemma elv_zr fv l k : l \notin fv -> zr l (elv R (rcons fv l) k) = elv R fv k.
Proof.
  move=> N. rewrite /elv /zr (elg_map (@sub_rmorphism R _)) -map_comp map_rcons /=. rewrite -cats1. rewrite (@elg_perm _ _ (0 :: [seq X v | v <- fv])); first exact: elg_zero.
  rewrite perm_catC cat1s subX eqxx. have -> : [seq sub (fun u => if u == l then 0 else X u) (X v) | v <- fv] = [seq X v | v <- fv] by apply/eq_in_map => v Hv; rewrite subX; case: eqP => // E; case/negP: N; rewrite -E. exact: perm_refl.
Qed.
Lemma elv_wle vs k : wle w1 (elv R vs k) k.
Proof.
  elim: vs k => [|v vs IH] [|k]; rewrite /elv ?elg0 ?elg_nil //=; try exact: wle1. rewrite elg_cons. apply: wleD; first exact: IH. exact: (wleM (wleX R w1 v) (IH k)).
Qed.
Lemma elv_in vs k : varsin (fun v => v \in vs) (elv R vs k).
Proof.
  suff G us : {subset us <= vs} -> varsin (fun v => v \in vs) (elv R us k) by exact: G. elim: us k => [|v us IH] [|k] S; rewrite /elv ?elg0 ?elg_nil //=; try exact: varsin1. rewrite elg_cons.
  have S' : {subset us <= vs} by move=> u Hu; apply: S; rewrite inE Hu orbT. apply: varsinD; first exact: IH. apply: varsinM; [|exact: IH]. apply: varsinX. apply: S. exact: mem_head.
Qed.
Lemma elv_ren vs h k : perm_eq [seq h v | v <- vs] vs -> ren h (elv R vs k) = elv R vs k.
Proof.
  move=> P. rewrite /elv /ren (elg_map (@sub_rmorphism R _)) -map_comp. have -> : [seq (sub (fun v => X (h v)) \o X) v | v <- vs] = [seq X v | v <- [seq h v | v <- vs]] by rewrite -map_comp; apply: eq_map => v /=; rewrite subX. apply: elg_perm. exact: perm_map.
Qed.
End Elv.
Lemma index_take (m : nat) (e : seq nat) v : v \in take m e -> index v (take m e) = index v e.
Proof. move=> H. by rewrite -[in RHS](cat_take_drop m e) index_cat H. Qed.
Lemma split_sub (C : eqType) (p : seq (mon * C)) z : z \in mp_split_by_degree p -> {subset z.2 <= p}.
Proof.
  rewrite /mp_split_by_degree. have pu d t (h : seq (nat * seq (mon * C))) z' : z' \in push_at d t h -> forall s, s \in z'.2 -> s = t \/ exists2 y, y \in h & s \in y.2.
  { elim: h => [|[d' l] h IH] /=; first by rewrite inE => /eqP -> s; rewrite inE => /eqP; left. case: Nat.eqb; rewrite inE => /orP[/eqP -> s /=|Hz s Hs].
    - rewrite mem_cat inE => /orP[H|/eqP]; [right|by left]. by exists (d', l); rewrite ?mem_head.
    - right. by exists z' => //; rewrite inE Hz orbT.
    - right. by exists (d', l); rewrite ?mem_head.
    - case: (IH Hz s Hs) => [|[y Hy]]; [by left|right]. by exists y; rewrite // inE Hy orbT. }
  have G (l : seq (mon * C)) (h : seq (nat * seq (mon * C))) : (forall y, y \in h -> {subset y.2 <= p}) -> {subset l <= p} -> forall y, y \in fold_left (fun h t => push_at (mono_degree t.1) t h) l h -> {subset y.2 <= p}.
  { elim: l h => //= t l IH h Hh Hl. apply: IH => [y Hy s Hs|s Hs]; last by apply: Hl; rewrite inE Hs orbT. case: (pu _ _ _ _ Hy s Hs) => [->|[y' Hy' Hs']]; [by apply: Hl; rewrite mem_head|exact: (Hh _ Hy')]. }
  by apply: G.
Qed.
Section Main.
Variable R : idomainType.
Notation O := (mc_ops R).
Notation K := (mpoly R predT).
Notation tm := (seq (mon * R)).
Notation X := (kvar R predT).
Notation V := (ofl predT).
Notation w1 := (fun _ : nat => 1%N).
Variable div : div_op O.
Hypothesis D : idom_laws O div.
Variable pick : list nat -> nat.
Hypothesis pickP : forall l, l <> [::] -> pick l \in l.
Variable dflt : tm -> tm -> divres tm.
Variable shuffle : seq (nat * tm) -> seq (nat * tm).
Hypothesis shufP : forall l, perm_eq (shuffle l) l.
Variable e : seq nat.
Hypothesis Ue : uniq e.
Notation impl := (@sym_impl O div pick dflt shuffle).
Notation himpl := (@hom_impl O div pick dflt).
Definition we (v : nat) : nat := (index v e).+1.
Definition good (vars : seq nat) (x s : K) (d : nat) : Prop := [/\ varsin (fun v => v \in take (size vars) e) s, wle we s d & sub (sig R vars e) s = x].
Definition pre (vars : seq nat) (p : tm) (d : nat) : Prop := [/\ uniq vars, (size vars <= size e)%N, wf p, (forall v, occurs v p -> v \in vars) & symm vars (V p : K) /\ all (fun t => total_degree t.1 <= d)%N p].
Lemma V_wle (p : tm) d : wf p -> all (fun t => total_degree t.1 <= d)%N p -> wle w1 (V p : K) d.
Proof.
  move=> W A. apply/wleP => m. rewrite cf_ofl; last exact/okmT/wf_mcan. move=> N. rewrite wt1. have : m \in [seq t.1 | t <- p]. { apply: contraR N => H. rewrite /coef big1_seq // => t /andP[/eqP Et Ht]. case/negP: H. apply/mapP. by exists t. } case/mapP => t Ht ->. exact: (allP A).
Qed.
Lemma wle_V x d : wle w1 x d -> all (fun t => total_degree t.1 <= d)%N (x : tm).
Proof. move=> /wleP H. apply/allP => t Ht. rewrite -wt1. apply: H. have /and3P[U' _ Z] := mv_can x. rewrite (coef_uniq _ U' Ht). exact: (allP Z). Qed.
Lemma mv_occurs (x : K) (P : pred nat) : varsin P x -> forall v, occurs v (x : tm) -> P v.
Proof. move=> /allP H v /hasP[t Ht /hasP[z Hz /eqP <-]]. exact: (allP (H t Ht)). Qed.
Lemma goodD vars x y s t d : good vars x s d -> good vars y t d -> good vars (x + y) (s + t) d.
Proof. case=> [A1 A2 A3] [B1 B2 B3]. split; [exact: varsinD|exact: wleD|by rewrite (rmorphD (@sub_rmorphism R _)) /= A3 B3]. Qed.
Lemma good_le vars x s d d' : (d <= d')%N -> good vars x s d -> good vars x s d'. Proof. move=> H [A1 A2 A3]. split=> //. exact: wle_le A2. Qed.
Definition spec fuel := forall vars p d, pre vars p d -> (size vars + d < fuel)%N -> exists s : K, impl fuel e vars p = Some (mv s) /\ good vars (V p) s d.
Lemma impl_nil f vars : impl f.+1 e vars [::] = Some (mv (0 : K)).
Proof. rewrite /=. by have /perm_nilP -> := shufP [::]. Qed.
Lemma hom_ok fuel vars p d : spec fuel -> pre vars p d -> (0 < d)%N -> (0 < size vars)%N -> (size vars + d < fuel.+1)%N -> 
  exists s : K, himpl (impl fuel e) vars p e = Some (mv s) /\ good vars (V p) s d.
Proof.
  move=> IH [U Sz W Oc [Sy Dg]] Hd Hn Hf. case: fuel IH Hf => [|fuel] IH Hf; first by exfalso; move: (size vars) Hn Hf => n0 Hn Hf; lia. case/lastP: vars Hn U Sz Oc Sy Hf => // fv l _ U Sz Oc Sy Hf.
  have Us : uniq fv /\ l \notin fv by move: U; rewrite rcons_uniq => /andP[]. case: Us => Uf Nl. rewrite size_rcons in Sz Hf. have Fu1 : (size fv + d < fuel.+1)%N by lia.
  have Fu2 : (size (rcons fv l) + (d - (size fv).+1) < fuel.+1)%N by rewrite size_rcons; lia. have Lfe : (size fv <= size e)%N by lia.
  have Dd : (size fv < d)%N -> d = ((size fv).+1 + (d - (size fv).+1))%N by lia.
  set x : K := V p in Sy *. rewrite /hom_impl revE rev_rcons. cbv beta iota. have -> : removelast (rcons fv l) = fv by rewrite -cats1 List.removelast_last.
  set pt := mp_evaluate_var_zero p l. have [Wt [Nt Et]] := C29_evaluate_var_zero l W. rewrite -/pt in Wt Nt Et.
  have Ept : V pt = zr l x :> K. { rewrite -[LHS]sub_id /sub V_ev // Et. by rewrite /zr /sub /x V_ev. }
  have Ptsub : {subset pt <= p} by move=> t; rewrite /pt /mp_evaluate_var_zero filterE mem_filter => /andP[].
  have Opt v : occurs v pt -> v \in fv. { move=> Hv. have : occurs v p by case/hasP: Hv => t /Ptsub Ht Hz; apply/hasP; exists t. move/Oc. rewrite mem_rcons inE => /orP[/eqP E|] //. by case/negP: Nt; rewrite -E. }
  have Spt : symm fv (V pt : K).
  { split; first exact: V_in. move=> h Ph. rewrite Ept. pose h' v := if v == l then l else h v.
    have hin v : v \in fv -> h v \in fv by move=> Hv; rewrite -(perm_mem Ph) map_f.
    have Ph' : perm_eq [seq h' v | v <- rcons fv l] (rcons fv l). { rewrite map_rcons -!cats1 /h' eqxx perm_cat2r. rewrite (_ : [seq _ | v <- fv] = [seq h v | v <- fv]) //. apply/eq_in_map => v Hv. case: eqP => // E. by case/negP: Nl; rewrite -E. }
    rewrite -[in RHS](Sy.2 _ Ph') /ren /zr !sub_sub. apply: (sub_eq Sy.1) => v. rewrite mem_rcons inE subX => /orP[/eqP ->|Hv]; rewrite /h'; first by rewrite !eqxx (rmorph0 (@sub_rmorphism R _)).
    have -> : (v == l) = false by apply/eqP => E; case/negP: Nl; rewrite -E. have -> : (h v == l) = false by apply/eqP => E; case/negP: Nl; rewrite -E hin. exact: subX. }
  have [|s1 [E1 [V1 W1 S1]]] := IH fv pt d _ Fu1.
  { split=> //. split=> //. apply/allP => t /Ptsub. exact: (allP Dg). }
  rewrite E1. cbn [obind]. rewrite !lengthE. have -> : Nat.leb (size fv) (size e) by rewrite lebE. cbn [obind].
  have -> : firstn (size fv) e = take (size fv) e by elim: (size fv) (e) => [|k IHk] [|a b] //=; rewrite IHk.
  rewrite subst_elemE //; last exact: take_uniq. cbn [obind].
  have Er : sub (sig R (rcons fv l) (take (size fv) e)) s1 = sub (sig R (rcons fv l) e) s1. { apply: sub_eq V1 _ => v Hv. by rewrite /sig index_take. }
  rewrite Er. set r := sub (sig R (rcons fv l) e) s1. 
  have Zr : zr l r = zr l x. { rewrite -Ept -S1 /r /zr sub_sub. apply: sub_eq V1 _ => v Hv. exact: elv_zr. }
  have Sr : symm (rcons fv l) r. { split; first by exact: (varsin_sub s1 (fun v => elv_in R (rcons fv l) (index v e).+1)). move=> h Ph. rewrite /r /ren sub_sub. apply: sub_eq V1 _ => v Hv. exact: elv_ren. }
  have Wr : wle w1 r d by exact: (wle_sub (fun v => elv_wle R (rcons fv l) (we v)) W1).
  have -> : @mp_add O p (@mp_neg O r) = mv (x - r) by rewrite mv_neg V_addl.
  set q := x - r. have Sq : symm (rcons fv l) q. { split; first by apply: varsinD; [exact: Sy.1|apply: varsinN; exact: Sr.1]. move=> h Ph. rewrite /q (rmorphB (@ren_rmorphism R h)) /=. by rewrite Sy.2 // Sr.2. }
  have Zq : zr l q = 0 by rewrite /q /zr (rmorphB (@sub_rmorphism R _)) /= -/(zr l x) -/(zr l r) Zr subrr.
  have [y Ey] : exists y, q = (\prod_(v <- rcons fv l) X v) * y. { apply: zr_prod => // v Hv. apply: (@zr_symm _ (rcons fv l) l) => //. by rewrite mem_rcons mem_head. }
  set en : K := \prod_(v <- rcons fv l) X v in Ey. have en0 : en != 0 by exact: prod_neq0.
  have -> : @product (mp_ops O) (map (@mp_var O) (rcons fv l)) = mv en.
  { rewrite /en -(big_map X predT id) -(rprodE (map X (rcons fv l))). have := hom_product (@mv_hom R predT) (map X (rcons fv l)). move=> ->. congr product. rewrite -map_comp. apply: eq_map => v /=. exact: var_mv. }
  have In : varsin (fun v => v \in rcons fv l) en. { rewrite /en big_seq. apply: (big_ind (varsin (fun v => v \in rcons fv l))); [exact: varsin1|exact: varsinM|] => v Hv. exact: varsinX. }
  have Hen : List.nth_error e (size (rcons fv l) - 1) = Some (nth 0%N e (size fv)) by rewrite size_rcons subn1 /= (nth_errorE 0%N) Sz.
  rewrite Hen. cbn [obind]. set env := nth 0%N e (size fv).
  set fu := (length (mp_free_vars (q : tm)) + length (mp_free_vars (en : tm)))%coq_nat.
  have Fu : (size (rcons fv l) < fu.+1)%N.
  { rewrite ltnS /fu !lengthE. apply: leq_trans (leq_addl _ _). apply: uniq_leq_size => // v Hv. rewrite free_varsE. apply/negPn/negP => No.
    have Z : zr v en = en. { apply: zr_in. apply/allP => t Ht. apply/allP => z Hz. apply/eqP => E. case/negP: No. apply/hasP. exists t => //. apply/hasP. exists z => //. exact/eqP. }
    have : zr v en = 0. { rewrite /en (big_rem v) //= /zr (rmorphM (@sub_rmorphism R _)) /= subX eqxx. exact: mul0r. } rewrite Z => E. by rewrite E eqxx in en0. }
  have [y1 Ey1] := (varsin_incl _ _).1 Sq.1. have [y2 Ey2] := (varsin_incl _ _).1 In.
  have Mq : mv q = mv y1 by rewrite Ey1 incl_mv. have Me : mv en = mv y2 by rewrite Ey2 incl_mv.
  have := @div_ring R div D pick pickP dflt fu.+1 (fun v => v \in rcons fv l) (rcons fv l) (fun u H => H) U Fu y1 y2. rewrite -Mq -Me.
  case: (mp_div div pick dflt fu.+1 (mv q) (mv en)) => [[q'||]|] // H.
  2:{ case/negP: en0. by rewrite Ey2 H (rmorph0 (@incl_rmorphism R (fun v => v \in rcons fv l) predT)). }
  2:{ case: H => _ Nd. have II (a b : mpoly R (fun v => v \in rcons fv l)) : @incl R _ predT a = @incl R _ predT b -> a = b by move=> E; apply: val_inj => /=; move: (congr1 (@mv R predT) E); rewrite !incl_mv.
    have IM (a b : mpoly R (fun v => v \in rcons fv l)) : @incl R _ predT (a * b) = @incl R _ predT a * @incl R _ predT b by apply: (rmorphM (@incl_rmorphism R (fun v => v \in rcons fv l) predT)).
    have [Z|NZ] := eqVneq q 0.
    - case: (Nd 0). apply: II. by rewrite IM -Ey1 Z [incl _ 0](rmorph0 (@incl_rmorphism R (fun v => v \in rcons fv l) predT)) mul0r.
    - have : varsin (fun v => v \in rcons fv l) y. { rewrite okm_all. apply: (@factor_vars R _ y en); rewrite mulrC -Ey // -okm_all. exact: Sq.1. }
      move/varsin_incl => [y' Ey']. case: (Nd y'). apply: II. by rewrite IM -Ey1 -Ey2 -Ey' mulrC. }
  move: H.
  move=> [_ [q2 [-> Eq2]]]. pose z : K := @incl R (fun v => v \in rcons fv l) predT q2. have Ez : q = en * z by rewrite Ey1 Eq2 rmorphM /= -Ey2 mulrC.
  have Mz : mv q2 = mv z by rewrite /z incl_mv. rewrite Mz.
  have Dz := @dle_prod R (rcons fv l) z d. rewrite -/en -Ez in Dz. have {}Dz := Dz (wleD (V_wle W Dg) (wleN Wr)). rewrite size_rcons in Dz.
  have Sz' : symm (rcons fv l) z.
  { split; first by apply/varsin_incl; exists q2. move=> h Ph. apply: (mulfI en0). have Rn : ren h en = en. { rewrite /en (rmorph_prod (@ren_rmorphism R h)) /=. rewrite (eq_bigr (fun v => X (h v))); last by move=> v _; apply: subX. by rewrite -(big_map h predT X) (perm_big _ Ph). }
    rewrite -{1}Rn -(rmorphM (@ren_rmorphism R h)) -Ez. exact: Sq.2. }
  have [s2 [E2 G2]] : exists s2 : K, impl fuel.+1 e (rcons fv l) z = Some (mv s2) /\ (s2 = 0 /\ z = 0 \/ (size fv < d)%N /\ good (rcons fv l) z s2 (d - (size fv).+1)).
  { case: Dz => [Z0|[Hle Dz]].
    - exists 0. split; last by left. rewrite Z0. exact: impl_nil.
    - have [|s2 [E2 G2]] := IH (rcons fv l) (z : tm) (d - (size fv).+1)%N _ Fu2; last by exists s2; rewrite V_mv in G2; split=> //; right.
      split; rewrite ?size_rcons //; [exact: wf_mv|exact: mv_occurs Sz'.1|]. rewrite V_mv. split=> //. exact: wle_V. }
  cbn [obind]. rewrite E2. cbn [obind]. exists (s1 + X env * s2). rewrite (@var_mv R predT) // mv_mul mv_add. split=> //.
  have Hev : env \in take (size fv).+1 e by rewrite (take_nth 0%N) // mem_rcons mem_head.
  have Iev : index env e = size fv by rewrite /env index_uniq.
  have G1 : good (rcons fv l) r s1 d. { split=> //. rewrite size_rcons. apply: varsin_weak V1 => v Hv. rewrite (take_nth 0%N) // mem_rcons inE Hv orbT. by []. }
  have -> : x = r + en * z by rewrite -Ez /q addrC subrK. apply: goodD => //. case: G2 => [[-> ->]|[Hd2 [A1 A2 A3]]].
  - rewrite !mulr0. split=> //. exact: (rmorph0 (@sub_rmorphism R _)).
  - split; rewrite ?size_rcons in A1 *.
    + apply: varsinM => //. exact: varsinX.
    + rewrite [d in wle _ _ d](Dd Hd2). have <- : we env = (size fv).+1 by rewrite /we Iev. apply: wleM; [exact: wleX|by rewrite /we Iev].
    + rewrite (rmorphM (@sub_rmorphism R _)) /= A3 subX. congr (_ * _). rewrite /sig Iev /elv /en. have := elg_top [seq X v | v <- rcons fv l]. rewrite size_map size_rcons => ->. by rewrite big_map.
Qed.
Lemma sym_ok fuel : spec fuel.
Proof.
  elim: fuel => [|fuel IH] vars p d P Hf; first by rewrite ltn0 in Hf.
  have [U Sz W Oc [Sy Dg]] := P. cbn [sym_impl].
  set step := fun (total : option tm) (dh : nat * tm) => _. set parts := mp_split_by_degree p.
  have [Up [Hp Ep]] := C29_split_by_degree W. rewrite -/parts in Up Hp Ep.
  have Sub z : z \in parts -> {subset z.2 <= p} by exact: split_sub.
  have Ocz z : z \in parts -> forall v, occurs v z.2 -> v \in vars by move=> Hz v /hasP[t /(Sub z Hz) Ht H]; apply: Oc; apply/hasP; exists t.
  have Hz3 z : z \in parts -> z.2 <> [::] /\ wf z.2 /\ all (fun t => total_degree t.1 == z.1) z.2 by case: z => a b; apply: Hp.
  have VS : V p = \sum_(z <- parts) V z.2 :> K.
  { apply: mp_ext => m. rewrite cf_ofl; last exact/okmT/wf_mcan. rewrite -[cf p m]/(coeff p m) Ep. have cs (h : seq (nat * tm)) : (forall z, z \in h -> wf z.2) -> cf (\sum_(z <- h) V z.2 : K) m = \sum_(z <- h) coeff z.2 m.
    { elim: h => [|z h IHh] Hh; first by rewrite !big_nil cf0. rewrite !big_cons cfD cf_ofl; last by apply/okmT/wf_mcan/Hh/mem_head. by rewrite IHh // => y Hy; apply: Hh; rewrite inE Hy orbT. }
    rewrite cs // => z Hz. by case: (Hz3 z Hz) => _ []. }
  have Syz : forall z, z \in parts -> symm vars (V z.2 : K).
  { apply: (parts_symm Up _ VS Sy) => z Hz. case: (Hz3 z Hz) => _ [W' A']. split=> //. split=> //. exact: Ocz. }
  have St z (t : K) : z \in parts -> exists s : K, step (Some (mv t)) z = Some (mv (t + s)) /\ good vars (V z.2) s d.
  { move=> Hz. have [Nz [Wz Az]] := Hz3 z Hz. have Dz : (z.1 <= d)%N. { case E: z.2 Nz => [|t0 l0] // _. have H0 : t0 \in z.2 by rewrite E mem_head. rewrite -(eqP (allP Az t0 H0)). exact: (allP Dg _ (Sub z Hz t0 H0)). }
    rewrite /step. cbn [obind]. case Ez: (Nat.eqb z.1 0).
    - exists (V z.2). rewrite V_addr //. split=> //. have Cz : V z.2 = kconst predT (cf (V z.2 : K) [::]) :> K.
      { apply: mp_ext => m. rewrite cfC [_ == m]eq_sym. have [->//|Nm] := eqVneq m [::]. rewrite cf_ofl; last exact/okmT/wf_mcan. rewrite /coef big1_seq // => t0 /andP[/eqP Et Ht]. have := allP Az _ Ht. move: Ez. rewrite eqbE => /eqP -> /eqP. rewrite Et /total_degree. case: m Nm Et => [|y m] // _ Et. rewrite big_cons.
        have := allP (wf_mcan Wz) _ Ht. rewrite Et -mono_okE => /andP[_] /= /andP[Hy _]. lia. }
      split; rewrite Cz; [exact: varsinC|exact: wleC|exact: subC].
    - have Pz : pre vars z.2 z.1. { split=> //; first exact: Ocz. split; first exact: Syz. apply/allP => t0 /(allP Az) /eqP ->. exact: leqnn. }
      have Z0 : (0 < z.1)%N by case: (z.1) Ez.
      have Nv : (0 < size vars)%N. { case: (vars) (Ocz z Hz) => // Hno. exfalso. case E: z.2 Nz => [|t0 l0] // _. have H0 : t0 \in z.2 by rewrite E mem_head. have := allP Az t0 H0. case Et: t0.1 => [|y m]; first by rewrite /total_degree big_nil eq_sym; case: (z.1) Z0.
        move=> _. have := Hno y.1. rewrite in_nil. move=> H. have : false by apply: H; apply/hasP; exists t0 => //; rewrite Et /= eqxx. by []. }
      have [|s [Es Gs]] := hom_ok IH Pz Z0 Nv; first lia. exists s. rewrite Es. cbn [obind]. rewrite mv_add. split=> //. exact: good_le Gs. }
  have Fold (l : seq (nat * tm)) (t : K) : {subset l <= parts} -> exists s : K, fold_left step l (Some (mv t)) = Some (mv (t + s)) /\ good vars (\sum_(z <- l) V z.2) s d.
  { elim: l t => [|z l IHl] t Hl. - exists 0. rewrite addr0 big_nil. split=> //. split=> //. exact: (rmorph0 (@sub_rmorphism R _)).
    - have [s1 [E1 G1]] := St z t (Hl z (mem_head _ _)). cbn [fold_left]. rewrite E1. have [y Hy|s2 [E2 G2]] := IHl (t + s1); first by apply: Hl; rewrite inE Hy orbT. exists (s1 + s2). rewrite E2 addrA big_cons. split=> //. exact: goodD. }
  have [z|s [Es Gs]] := Fold (shuffle parts) 0; first by rewrite (perm_mem (shufP parts)). exists s. rewrite -[@mp_zero O]/(mv (0 : K)) Es add0r. split=> //. by rewrite VS -(perm_big _ (shufP parts)).
Qed.
End Main.

(* algebraic independence of the elementary symmetric polynomials *)
Section Indep.
Variable R : idomainType.
Notation K := (mpoly R predT).
Notation tm := (seq (mon * R)).
Notation X := (kvar R predT).
Notation w1 := (fun _ : nat => 1%N).
Variable e : seq nat.
Hypothesis Ue : uniq e.
Lemma has_deg (x : K) : exists d, wle w1 x d.
Proof. exists (\sum_(t <- (x : tm)) wt w1 t.1)%N. apply/allP => t Ht. rewrite -/(wt w1 t.1) (big_rem t) //=. exact: leq_addr. Qed.
Lemma indep vars (s : K) : uniq vars -> (size vars <= size e)%N -> varsin (fun v => v \in take (size vars) e) s -> sub (sig R vars e) s = 0 -> s = 0.
Proof.
  elim/last_ind: vars s => [|fv l IH] s U Sz Vs Es.
  - rewrite -Es. rewrite -[LHS]sub_id. apply: sub_eq Vs _ => v. by rewrite take0 in_nil.
  - move: U. rewrite rcons_uniq => /andP[Nl Uf]. rewrite size_rcons in Sz Vs. have Lf : (size fv <= size e)%N by lia.
    set env := nth 0%N e (size fv). have Iev : index env e = size fv by rewrite /env index_uniq.
    have Tk : take (size fv).+1 e = rcons (take (size fv) e) env by rewrite (take_nth 0%N).
    have Nev : env \notin take (size fv) e by have := take_uniq (size fv).+1 Ue; rewrite Tk rcons_uniq => /andP[].
    have [d Hd] := has_deg s. move: s Vs Es Hd.
    have Step : forall s : K, varsin (fun v => v \in take (size fv).+1 e) s -> sub (sig R (rcons fv l) e) s = 0 -> s = 0 \/ exists y : K, [/\ s = X env * y, varsin (fun v => v \in take (size fv).+1 e) y & sub (sig R (rcons fv l) e) y = 0].
    { move=> s Vs Es. have Z1 : zr env s = 0.
      { apply: IH => //.
        - rewrite /zr; rewrite (@sub_eq R (fun v => v \in take (size fv).+1 e) _ (fun v => if v \in take (size fv) e then X v else 0) s Vs); last by move=> v; rewrite Tk mem_rcons inE => /orP[/eqP ->|Hv]; [rewrite eqxx (negbTE Nev)|rewrite Hv; case: eqP => // E; case/negP: Nev; rewrite -E].
          apply: varsin_sub => v; case: ifP => // Hv; exact: varsinX.
        - have E : zr l (sub (sig R (rcons fv l) e) s) = 0 by rewrite Es /zr (rmorph0 (@sub_rmorphism R _)). rewrite -[RHS]E /zr !sub_sub. apply: sub_eq Vs _ => v Hv. have [->|N] := eqVneq v env.
          + by rewrite (rmorph0 (@sub_rmorphism R _)) -/(zr l _) /sig Iev elv_zr // /elv elg_big // size_map.
          + by rewrite subX /sig -/(zr l _) elv_zr. }
      have [y Ey] := zr_div Z1; have [->|Ns] := eqVneq s 0; [by left|right]. exists y. split=> //.
      - by rewrite okm_all; apply: (@factor_vars R _ y (X env)); rewrite mulrC -Ey // -okm_all.
      - move: Es; rewrite Ey (rmorphM (@sub_rmorphism R _)) /= subX {1}/sig Iev /elv => /eqP; have := elg_top [seq X v | v <- rcons fv l]; rewrite size_map size_rcons => ->; rewrite mulf_eq0 big_map (negbTE (prod_neq0 R _)) /=; by move/eqP. }
    elim: d => [|d IHd] s Vs Es Hd; case: (Step s Vs Es) => [//|[y [Ey Hy Ey0]]]; rewrite Ey in Hd; case: (wle_varM Hd) => [y0|[//]]; try by rewrite Ey y0 mulr0.
    rewrite subn1 /= => _ Hd'. by rewrite Ey (IHd y) // mulr0.
Qed.
End Indep.
