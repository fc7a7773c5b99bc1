(* C29: the order of hash maps, exact division, and where the code departs from the property. *)
From Coq Require Import List Arith NArith ZArith Bool.
From mathcomp Require Import all_ssreflect all_algebra.
From mathcomp Require Import zify.
From Coq Require Import Lia.
From Verif Require Import RingSpec RingModel PermModel MatModel MatSpec PolyModel PolyProofs PolyProofs2 PolyHom MpModel FinSupp MpRing MpRing2 MpRing3 MpRing4 MpProofs MpProofs2 MpSpec MpProofs3 MpProps MpProps2.
From Verif Require Import ZRing MatInst.
Close Scope rs_scope.
Set Implicit Arguments. Unset Strict Implicit. Unset Printing Implicit Defensive.
Import GRing.Theory.
Local Open Scope ring_scope.
(* The products iterate over hash maps: whatever the order of the entries, the monomial or polynomial built from them is the same. *)
Theorem C29_hash_order (R : comRingType) :
  (forall m m' : mon, uniq [seq x.1 | x <- m] -> perm_eq m m' -> mono_new m = mono_new m') /\
  (forall p p' : seq (mon * R), uniq [seq t.1 | t <- p] -> perm_eq p p' -> @mp_reduce (mc_ops R) (mp_new p) = @mp_reduce (mc_ops R) (mp_new p')).
Proof.
  split=> [m m'|p p'] U P.
  - have U' : uniq [seq x.1 | x <- m'] by rewrite -(perm_uniq (perm_map _ P)). rewrite !mono_newE //. apply: mnf_ext => v. exact: coef_perm.
  - have N (q : seq (mon * R)) : perm_eq (mp_new q) q by exact: mp_new_perm.
    have U1 (q : seq (mon * R)) : uniq [seq t.1 | t <- q] -> uniq [seq t.1 | t <- mp_new q] by rewrite (perm_uniq (perm_map _ (N q))).
    rewrite !reduceE; try apply: U1; rewrite -?(perm_uniq (perm_map _ P)) //. apply: rnf_ext => m. apply: coef_perm. rewrite (permPl (N p)) (permPr (N p')). exact: P.
Qed.
Print Assumptions C29_hash_order.

Section Div.
Variable R : idomainType.
Notation O := (mc_ops R).
Notation poly := (seq (mon * R)).
Implicit Types (a b q : poly).
(* exact division, whatever variable the hash set yields first: any amount of fuel above the number of variables suffices.
   The only inputs left out are two constants, the divisor being the stored term 0 (see C29_div_refuted). *)
Theorem C29_div (div : div_op O) (pick : list nat -> nat) dflt fuel (S : seq nat) a b :
  idom_laws O div -> (forall l, l <> [::] -> pick l \in l) -> wf a -> wf b ->
  (forall v, occurs v a || occurs v b -> v \in S) -> (size S < fuel)%N ->
  b <> [:: ([::], 0)] \/ (exists v, occurs v a) ->
  match @mp_div O div pick dflt fuel a b with
  | Some DivideByZero => forall m, coeff b m = 0
  | Some (DivOk q) => (exists m, coeff b m <> 0) /\ wf q /\ @mp_equal O (@mp_mul O q b) a = true /\ forall v, occurs v q -> occurs v a || occurs v b
  | Some NotDivisible => (exists m, coeff b m <> 0) /\ forall q, wf q -> @mp_equal O (@mp_mul O q b) a = false
  | None => False
  end.
Proof.
  move=> D pickP Ha Hb HS Hf Nb. pose ok : pred nat := fun v => occurs v a || occurs v b.
  have Hok (p : poly) : wf p -> (forall v, occurs v p -> ok v) -> all (fun t => okm ok t.1) p.
  { move=> Hp H. apply/allP => t Ht. rewrite /okm (allP (wf_mcan Hp) _ Ht) /=. apply/allP => x Hx. apply: H. apply/hasP. exists t => //. apply/hasP. by exists x. }
  have Oa := Hok a Ha (fun v H => introT orP (or_introl H)). have Ob := Hok b Hb (fun v H => introT orP (or_intror H)).
  set x := ofl ok a. set y := ofl ok b.
  have Y0 : y != 0 -> exists m, coeff b m <> 0.
  { move=> Ny. have : rnf b <> [::] by move=> E; move/eqP: Ny; case; apply: val_inj; rewrite [LHS](mv_ofl Ob). case E: (rnf b) => [|t l] // _. exists t.1. rewrite -[coeff b _]/(cf b t.1) -cf_nf. have C : tcan (rnf b) by exact: tcan_nf.
    case/and3P: C => U _ /allP Z. have Ht : t \in rnf b by rewrite E mem_head. rewrite (coef_uniq _ U Ht). exact/eqP/Z. }
  have Cy : y = 0 -> forall m, coeff b m = 0 by move=> E m; rewrite -[coeff b m]/(cf b m) -(cf_ofl _ Ob) -/y E cf0.
  (* no quotient in any variables *)
  have NQ : y != 0 -> (forall q : mpoly R ok, x <> q * y) -> forall q, wf q -> @mp_equal O (@mp_mul O q b) a = false.
  { move=> Ny H q Hq. apply/negP => E. have Wm := normal_wf (C29_mul Hq Hb).1. have {}E := (C29_equal Wm Ha).1.1 E.
    pose Q := ofl predT q. pose B := ofl predT b. have Cq := okmT (wf_mcan Hq). have Cb := okmT (wf_mcan Hb). have Ca := okmT (wf_mcan Ha).
    have EP : Q * B = ofl predT a.
    { apply: mp_ext => m. rewrite cf_ofl // -[cf a m]/(coeff a m) -E -[coeff _ m]/(cf _ m) mp_mulE cf_nf. rewrite -[mv _]/(rnf (mull Q B)) cf_nf. have L (p1 p2 p3 p4 : poly) : all (fun t => okm predT t.1) p1 -> all (fun t => okm predT t.1) p2 -> rnf p1 = p3 -> rnf p2 = p4 -> cf (mull p3 p4) m = cf (mull p1 p2) m.
      { move=> H1 H2 <- <-. have A1 : forall p5 p6 : poly, all (fun t => okm predT t.1) p5 -> all (fun t => okm predT t.1) p6 -> cf (mull p5 p6) m = cf (evl [rmorphism of kconst predT] (kvar R predT) p5 * evl [rmorphism of kconst predT] (kvar R predT) p6) m.
        { move=> p5 p6 H5 H6. rewrite -evl_mull ev_cf //. apply/allP => t /allpairsP[[s u] /= [Hs Hu ->]] /=. apply: okm_mm; [exact: (allP H5)|exact: (allP H6)]. }
        rewrite (A1 p1 p2) // A1; first by rewrite !evl_nf. - by case/andP: (valid_nf H1). - by case/andP: (valid_nf H2). }
      apply: L => //; by rewrite mv_ofl. }
    have [Z|NZ] := eqVneq (Q * B) 0.
    - (* then q = 0 or b = 0 *)
      case: (H 0). rewrite mul0r. apply: mp_ext => m. rewrite cf_ofl // -(cf_ofl m Ca) -EP Z !cf0. by [].
    - have Aq : all (fun t => okm ok t.1) (Q : poly). { apply: (factor_vars NZ). rewrite EP. rewrite mv_ofl //. by case/andP: (valid_nf Oa). }
      case: (H (ofl ok Q)). apply: mp_ext => m. rewrite cf_ofl // -(cf_ofl m Ca) -EP. 
      have I : forall z : mpoly R ok, mv (@incl R ok predT z) = mv z by move=> z; apply: incl_mv.
      rewrite -[in RHS]I rmorphM. congr (cf (mv (_ * _)) m); apply: val_inj => /=; rewrite [RHS]I mv_ofl //.
      + by rewrite rnf_id // mv_can.
      + by rewrite mv_ofl. }
  case: fuel Hf => // fuel Hf.
  case: (@eqP _ (hset Nat.eqb (mp_free_vars a ++ mp_free_vars b)) [::]) => [E|N].
  - have Nv u : occurs u a = false /\ occurs u b = false. { have := mem_hset (mp_free_vars a ++ mp_free_vars b) u. rewrite E mem_cat !free_varsE => /esym/negbT. rewrite negb_or. by case/andP=> /negbTE -> /negbTE ->. }
    have Cs (p : poly) : wf p -> (forall u, occurs u p = false) -> p = [::] \/ exists c, p = [:: ([::], c)].
    { move=> /andP[_ Up] Hu. have M t : t \in p -> t.1 = [::]. { move=> Ht. case Et: t.1 => [|z m] //. have := Hu z.1. move/negP. case. apply/hasP. exists t => //. by rewrite Et /= eqxx. }
      case: p Up M {Hu} => [|t [|t' l]] Up M; first by left. - right. exists t.2. rewrite -(M t) ?mem_head //. by case: (t). - move: Up => /= /andP[]. by rewrite (M t) ?mem_head // (M t') ?inE ?eqxx ?orbT. }
    have Nb' : b <> [:: ([::], 0)] by case: Nb => // -[v]; rewrite (Nv v).1.
    cbn [mp_div]. rewrite E. have [Eb|[c Eb]] := Cs b Hb (fun u => (Nv u).2); have [Ea|[d Ea]] := Cs a Ha (fun u => (Nv u).1); rewrite Ea Eb /=.
    + move=> m. by rewrite /coeff big_nil.
    + move=> m. by rewrite /coeff big_nil.
    + have Hc : c <> 0 by move=> Z; apply: Nb'; rewrite Eb Z. split; first by exists [::]; rewrite /coeff big_cons big_nil /= addr0. by [].
    + have Hc : c <> 0 by move=> Z; apply: Nb'; rewrite Eb Z. have Bc : exists m, coeff [:: ([::] : mon, c)] m <> 0 by exists [::]; rewrite /coeff big_cons big_nil /= addr0.
      have := divP D d c. case Ed: (div d c) => [q||].
      * move=> [Eq _]. split=> //. split=> //. split=> //. have W (z : R) : wf [:: ([::] : mon, z)] by [].
        apply/(C29_equal (normal_wf (C29_mul (W q) (W c)).1) (W d)).2 => A f th. rewrite (C29_mul (W q) (W c)).2.2. by rewrite /value !big_seq1 !big_nil !mulr1 -rmorphM Eq.
      * by move=> Z; case: Hc.
      * move=> [_ Nq]. split=> //. have Hd : d != 0 by apply/eqP => Z; apply: (Nq 0); rewrite mul0r. have Hc' : c != 0 by exact/eqP.
        have := @div_base R div D pick dflt ok fuel (kconst ok d) (kconst ok c). rewrite !mv_const // => /(_ erefl). cbn [mp_div]. rewrite /= Ed /= => -[Z1 Z2]. rewrite -Eb.
        have Ey : y = kconst ok c by apply: val_inj; rewrite [LHS](mv_ofl Ob) [RHS](mv_const ok Hc') Eb rnf_id // /tcan /canon /= Hc'.
        have Ex : x = kconst ok d by apply: val_inj; rewrite [LHS](mv_ofl Oa) [RHS](mv_const ok Hd) Ea rnf_id // /tcan /canon /= Hd.
        rewrite -Ea. by apply: NQ; rewrite Ey ?Ex.
  - have HV v : v \in hset Nat.eqb (mp_free_vars a ++ mp_free_vars b) -> ok v by rewrite mem_hset mem_cat !free_varsE.
    have := div_step (div := div) pickP (dflt := dflt) (fuel := fuel) Oa Ob N.
    have IH : forall x0 y0 : mpoly R (ok1 ok (pick (hset Nat.eqb (mp_free_vars a ++ mp_free_vars b)))), divspec x0 y0 (@mp_div O div pick dflt fuel x0 y0).
    { have Hv := HV _ (pickP _ N). set v := pick _ in Hv *. have SV : v \in undup S by rewrite mem_undup; apply: HS. have SU := size_undup S.
      apply: (div_ring D pickP dflt (S := seq.rem v (undup S))).
      - move=> u /andP[H1 H2]. rewrite mem_rem_uniq ?undup_uniq //. apply/andP. split=> //=. rewrite mem_undup. exact: HS.
      - by rewrite rem_uniq // undup_uniq.
      - rewrite size_rem //. have : (0 < size (undup S))%N by rewrite lt0n size_eq0; apply/eqP => Z; rewrite Z in SV. move: Hf SU. clear. move: (size S) (size (undup S)) => n k. lia. }
    move=> /(_ IH). rewrite -/x -/y. case: mp_div => [[l||]|] //=.
    + move=> [Ny [q [-> Eq]]]. split; first exact: Y0. have Wq : wf (q : poly) by rewrite wfE; apply: tcan_wf; [apply: sub_all (mv_ok q) => t /andP[]|exact: mv_can]. split=> //. split.
      * apply/(C29_equal (normal_wf (C29_mul Wq Hb).1) Ha).2 => A f th. rewrite (C29_mul Wq Hb).2.2 !valueE.
        have V (p : poly) : all (fun t => okm ok t.1) p -> evl f th p = evk f th (ofl ok p) by move=> Hp; rewrite /evk mv_ofl // evl_nf. rewrite (V b) // (V a) // -/x -/y Eq rmorphM. by [].
      * move=> v /hasP[t Ht /hasP[z Hz /eqP <-]]. case/andP: (allP (mv_ok q) t Ht) => _ /allP H. exact: H.
    + move=> [Ny H]. split; first exact: Y0. exact: NQ.
Qed.
End Div.
Print Assumptions C29_div.
Notation ZO := (mc_ops Z_comRingType).
Notation zpoly := (seq (mon * Z_comRingType)).
Definition first (l : list nat) : nat := List.hd 0%N l.
(* (x^2 - y^2) / (x + y) = x - y; x / 2 is not divisible; the hypotheses hold with S = [0; 1] *)
Definition d1 : zpoly := [:: ([:: (0, 2)]%N, Zpos 1); ([:: (1, 2)]%N, Zneg 1)].
Definition d2 : zpoly := [:: ([:: (0, 1)]%N, Zpos 1); ([:: (1, 1)]%N, Zpos 1)].
Example ex_div : wf d1 /\ wf d2 /\ idom_laws ZO Zdiv /\ (forall l, l <> [::] -> first l \in l) /\
  (forall v, occurs v d1 || occurs v d2 -> v \in [:: 0; 1]%N) /\
  @mp_div ZO Zdiv first (fun _ _ => DivideByZero) 3 d1 d2 = Some (DivOk [:: ([:: (0, 1)]%N, Zpos 1); ([:: (1, 1)]%N, Zneg 1)]) /\
  @mp_div ZO Zdiv first (fun _ _ => DivideByZero) 3 d2 d1 = Some NotDivisible /\
  @mp_div ZO Zdiv first (fun _ _ => DivideByZero) 3 d2 [:: ([:: (1, 1)]%N, Z0)] = Some DivideByZero.
Proof.
  split=> //. split=> //. split; first exact: Zidom. split; first by case=> // x l _; rewrite mem_head.
  split; last by vm_compute. move=> v. rewrite /occurs /= !orbF !inE. by case: v => [|[|v]].
Qed.

(* Departures. Dividing by zero is an error value except for MultiPolynomial::constant(0), where the division panics. *)
Theorem C29_div_refuted pick dflt fuel : @mp_equal ZO (mp_constant (Z0 : Z_comRingType)) (@mp_zero ZO) = true /\
  @mp_div ZO Zdiv pick dflt fuel.+1 (mp_constant (Zpos 1 : Z_comRingType)) (@mp_zero ZO) = Some DivideByZero /\
  @mp_div ZO Zdiv pick dflt fuel.+1 (mp_constant (Zpos 1 : Z_comRingType)) (mp_constant (Z0 : Z_comRingType)) = None.
Proof. by []. Qed.
Print Assumptions C29_div_refuted.
(* degree and as_constant look at the stored terms: equal polynomials get different answers *)
Theorem C29_degree_refuted : exists p q : zpoly, wf p /\ wf q /\ @mp_equal ZO p q = true /\ mp_degree p <> mp_degree q.
Proof. exists (mp_constant (Z0 : Z_comRingType)), (@mp_zero ZO). by vm_compute. Qed.
Print Assumptions C29_degree_refuted.
Theorem C29_as_constant_refuted : exists p q : zpoly, wf p /\ wf q /\ @mp_equal ZO p q = true /\ @mp_as_constant ZO p = None /\ @mp_as_constant ZO q = Some Z0.
Proof. exists (mp_apply_map (fun _ => Z0) (@mp_var ZO 0) : zpoly), (@mp_zero ZO). by vm_compute. Qed.
Print Assumptions C29_as_constant_refuted.
(* homogenize by a variable that occurs: a polynomial with a repeated monomial, or a failed assertion *)
Theorem C29_homogenize_refuted : exists p q : zpoly, normal p /\ normal q /\
  match @mp_homogenize ZO p 0 with Some h => wf h = false | None => False end /\ @mp_homogenize ZO q 0 = None.
Proof.
  have N (l : zpoly) : tcan l -> all (fun t => mcan t.1) l -> normal l by move=> H1 H2; apply/normalE.
  exists [:: ([:: (0, 1)]%N, Zpos 1); ([::], Zpos 1)], [:: ([:: (0, 2)]%N, Zpos 1); ([:: (0, 1)]%N, Zpos 1)]. split; first by apply: N; vm_compute. split; first by apply: N; vm_compute. by vm_compute.
Qed.
Print Assumptions C29_homogenize_refuted.
(* apply_map_vars sending x and y to x turns x y into a monomial in which x occurs twice; it is not recognised as x^2 *)
Theorem C29_apply_map_vars_refuted : exists p q : zpoly, normal p /\ mp_apply_map_vars (fun _ => Some 0%N) p = Some q /\ wf q = false /\ @mp_equal ZO q (@mp_var_pow ZO 0 2) = false.
Proof.
  exists [:: ([:: (0, 1); (1, 1)]%N, Zpos 1)], [:: ([:: (0, 1); (0, 1)]%N, Zpos 1)]. split; last by vm_compute. apply/normalE. by vm_compute.
Qed.
Print Assumptions C29_apply_map_vars_refuted.
(* check_invariants panics on the zero polynomial *)
Theorem C29_check_refuted : normal (@mp_zero ZO) /\ @mp_check Z (@mp_zero ZO) = None.
Proof. split=> //. Qed.
Print Assumptions C29_check_refuted.
