(* Factorisation over a field of fractions through the primitive part (FofModel). *)
From Coq Require Import List Arith NArith Bool.
From mathcomp Require Import all_ssreflect all_algebra.
From mathcomp Require Import zify.
From Coq Require Import Lia.
From Verif Require Import RingSpec RingModel RingProofs FactoredSpec FactoredModel FactoredProofs PermModel MatModel MatSpec PolyModel PolyProofs PolyProofs2 PolyProofs3 PolyProofs11 PolyProofs12 FacModel FacProofs FacProofs2 FfProofs2 FofModel.
From Verif Require MatProofs MatProofs4.
Close Scope rs_scope.
Set Implicit Arguments.
Unset Strict Implicit.
Unset Printing Implicit Defensive.
Import GRing.Theory.
Local Open Scope ring_scope.

Section S.
Variables (R : idomainType) (K : fieldType).
Notation KI := [idomainType of K].
Notation O := (mc_ops R).
Notation OK := (mc_ops KI).
Notation PR := (poly_ops O).
Notation PK := (poly_ops OK).
Variables (fb : {rmorphism R -> K}) (num den : K -> R).
Hypothesis FI : injective fb.
Hypothesis ND : forall x, den x != 0 /\ fb (den x) * x = fb (num x).
Hypothesis N1 : forall r, den (fb r) = 1.
Variables (div : div_op O) (ffa : ffa_op O) (gcd : R -> R -> R).
Hypotheses (D : idom_laws O div) (F : ffa_laws O ffa) (G : gcd_laws O ffa gcd).
Variables (kdiv : div_op OK) (kffa : ffa_op OK).
Hypothesis KD : idom_laws OK kdiv.
Hypothesis KF : forall x y : KI, y != 0 -> exists q, kdiv x y = DivOk q.
Hypothesis KA : ffa_laws OK kffa.
Notation mapf := (map_poly fb).
Notation GE := (GE G).

Lemma fb_eq0 x : (fb x == 0) = (x == 0).
Proof. apply/eqP/eqP => [|->]; last exact: rmorph0. rewrite -(rmorph0 fb). exact: FI. Qed.
Lemma mapf_inj : injective mapf.
Proof. apply: map_inj_poly; [exact: FI|exact: rmorph0]. Qed.
Lemma mapf_eq0 A : (mapf A == 0) = (A == 0).
Proof. apply/eqP/eqP => [|->]; last exact: rmorph0. rewrite -(rmorph0 [rmorphism of mapf]). exact: mapf_inj. Qed.
Lemma size_mapf A : size (mapf A) = size A.
Proof. case: (@eqP _ A 0) => [->|/eqP H]; first by rewrite rmorph0 !size_poly0. rewrite size_poly_eq //. by rewrite fb_eq0 lead_coef_eq0. Qed.
Lemma lead_mapf A : lead_coef (mapf A) = fb (lead_coef A).
Proof. rewrite !lead_coefE size_mapf coef_map_id0 //. exact: rmorph0. Qed.
Lemma Poly_map (l : seq R) : Poly (map fb l : seq K) = mapf (Poly l).
Proof. apply/polyP => i. rewrite coef_map_id0 ?rmorph0 // !coef_Poly. have [Hi|Hi] := ltnP i (size l); first by rewrite (nth_map 0). by rewrite !nth_default ?size_map ?rmorph0. Qed.
Lemma mapfZ c A : mapf (c *: A) = fb c *: mapf A.
Proof. by rewrite map_polyZ. Qed.

Lemma fof_ok (p : seq K) : Poly p != 0 -> exists u h, [/\ @factor_primitive_fof O OK fb num den div gcd kdiv p = Some (u, h), u != 0, prim (Poly h) & Poly p = u *: mapf (Poly h)].
Proof.
  move=> Hp. have [d [Ed [Hd1 Hd2]]] := @lcm_list_ok O (id_ring _ _ D) div D ffa gcd G (map den p).
  have Hdv c : c \in p -> exists e, d = den c * e.
  { move=> Hc. have [|e /eqP E] := Hd1 (den c); last by exists e. apply: (List.in_map den). exact/(MatProofs4.in_mem c). }
  have d0 : d != 0.
  { have : @rdvd O d (\prod_(c <- p) den c). { apply: Hd2 => x /List.in_map_iff [c [<- Hc]]. have Hc' : c \in p by apply/(MatProofs4.in_mem c). exists (\prod_(y <- seq.rem c p) den y). apply/eqP. by rewrite (big_rem _ Hc'). }
    case=> e /eqP /= E. apply/eqP => Z. have : \prod_(c <- p) den c != 0. { elim: (p) => [|x l IH]; first by rewrite big_nil oner_eq0. by rewrite big_cons mulf_neq0 // (ND x).1. }
    by rewrite E Z /= mul0r eqxx. }
  have K1 c : c \in p -> as_base_ring (R := O) (K := OK) num den (fb d * c) = Some (num (fb d * c)) /\ fb (num (fb d * c)) = fb d * c.
  { move=> /Hdv [e E]. have E1 : fb d * c = fb (e * num c) by rewrite E !rmorphM -(ND c).2 mulrAC [LHS]mulrC. have H1 : den (fb d * c) = 1 by rewrite E1.
    rewrite /as_base_ring H1. change (@req O 1 r1) with ((1 : R) == 1). rewrite eqxx. split=> //. have := (ND (fb d * c)).2. by rewrite H1 rmorph1 mul1r. }
  pose q := map (fun c => num (fb d * c)) p.
  have Eq : MatModel.mapM (fun c => as_base_ring (R := O) (K := OK) num den (@rmul OK (fb d) c)) p = Some q.
  { rewrite /q -mapE. apply: MatProofs.mapM_some => c /(MatProofs4.in_mem c) Hc. exact: (K1 c Hc).1. }
  have Mq : mapf (Poly q) = fb d *: Poly p.
  { rewrite -Poly_map /q -map_comp. apply/polyP => i. rewrite coefZ !coef_Poly. have [Hi|Hi] := ltnP i (size p).
    - rewrite (nth_map 0) //=. by apply: (K1 _ _).2; exact: mem_nth.
    - by rewrite !nth_default ?size_map // mulr0. }
  have fd0 : fb d != 0 by rewrite fb_eq0.
  have q0 : Poly q != 0. { rewrite -mapf_eq0 Mq. by rewrite scaler_eq0 negb_or fd0. }
  have [g [h [E1 E2 E3 E4]]] := fpu_ok D G q0. have [u Eu] := KF (fb g) fd0.
  have Eu' : fb g = u * fb d. { have /eqP := @div_ok _ _ KD (fb g) (fb d) u Eu. by move=> ->. }
  exists u, h. have u0 : u != 0. { apply/eqP => Z. have : fb g == 0 by rewrite Eu' Z mul0r. by rewrite fb_eq0 (negPf E3). }
  split=> //.
  - rewrite /factor_primitive_fof. have -> : lcm_list div gcd (List.map den p) = Some d by exact: Ed. cbn [obind]. rewrite Eq. cbn [obind]. rewrite E1. cbn [obind fst snd]. rewrite Eu. by [].
  - apply: (scalerI fd0). by rewrite -Mq E2 mapfZ Eu' scalerA [u * _]mulrC.
Qed.
Lemma clear (A : {poly K}) : exists a A0, a != 0 /\ fb a *: A = mapf A0.
Proof.
  case: (@eqP _ A 0) => [->|/eqP HA]; first by exists 1, 0; rewrite oner_eq0 scaler0 rmorph0.
  have [|u [h [_ _ _ E]]] := @fof_ok (polyseq A); first by rewrite polyseqK. rewrite polyseqK in E. exists (den u), (num u *: Poly h). split; first exact: (ND u).1.
  by rewrite mapfZ {1}E scalerA (ND u).2.
Qed.
Lemma rdvdK (a b : seq K) : @rdvd PK a b <-> Poly a %| Poly b.
Proof.
  split; first by case=> c /p_equalP; rewrite pmulE => ->; exact: dvdp_mulr.
  move/dvdpP => [Q E]. exists (polyseq Q). apply/p_equalP. by rewrite pmulE polyseqK mulrC.
Qed.
Lemma rdvdR (a b : seq R) : @rdvd PR a b <-> exists Q, Poly b = Poly a * Q.
Proof.
  split; first by case=> c /p_equalP; rewrite pmulE => ->; eexists.
  move=> [Q E]. exists (polyseq Q). apply/p_equalP. by rewrite pmulE polyseqK.
Qed.
(* divisibility over the field comes from divisibility by a prime over the ring *)
Lemma prime_dvd (h X : seq R) : @rprime PR h -> (1 < size (Poly h))%N -> mapf (Poly h) %| mapf (Poly X) -> @rdvd PR h X.
Proof.
  move=> [_ [_ Hp]] Sh /dvdpP [B EB]. have [b [B0 [b0 E0]]] := clear B.
  have E1 : b *: Poly X = B0 * Poly h by apply: mapf_inj; rewrite mapfZ rmorphM /= EB -E0 scalerAl.
  have [||H] // := Hp [:: b] X.
  - apply/rdvdR. exists B0. by rewrite pmulE Poly1 mul_polyC E1 mulrC.
  - case/rdvdR => Q. rewrite Poly1 => EQ. exfalso. have Q0 : Q != 0 by apply/eqP => Z; move: b0; rewrite -(polyC_eq0 b) EQ Z mulr0 eqxx.
    have h0 : Poly h != 0 by rewrite -size_poly_gt0; exact: ltn_trans Sh. have := congr1 (fun A : {poly R} => size A) EQ. rewrite size_mul // size_polyC b0.
    have q1 : (0 < size Q)%N by rewrite size_poly_gt0. move: (size (Poly h)) (size Q) Sh q1 => x y; case: x => [|[|x]] //; case: y => [|y] // _ _; rewrite addnS /= addSn => E2; discriminate E2.
Qed.
Lemma prime_fof (h : seq R) (g : seq K) k : @rprime PR h -> (1 < size (Poly h))%N -> k != 0 -> Poly g = k *: mapf (Poly h) -> @rprime PK g.
Proof.
  move=> Hh Sh k0 Eg. have Sg : size (Poly g) = size (Poly h) by rewrite Eg size_scale // size_mapf.
  split; [|split].
  - apply/negP => /p_equalP. rewrite -[Poly (@r0 PK)]/(0 : {poly K}) => Z. by move: Sh; rewrite -Sg Z size_poly0.
  - move/punitE => [u _ E]. move: Sh. by rewrite -Sg E ltnNge size_polyC_leq1.
  - move=> a b /rdvdK. rewrite pmulE Eg dvdpZl // => H. have [ca [A0 [ca0 EA]]] := clear (Poly a). have [cb [B0 [cb0 EB]]] := clear (Poly b).
    have [_ [_ Hp]] := Hh. have : @rdvd PR h (@rmul PR (polyseq A0) (polyseq B0)).
    { apply: prime_dvd => //. rewrite pmulE !polyseqK rmorphM /= -EA -EB -scalerAl -scalerAr !dvdpZr ?fb_eq0 //. }
    case/Hp => /rdvdR [Q EQ]; [left|right]; apply/rdvdK; rewrite Eg dvdpZl //.
    + have := congr1 mapf EQ. rewrite polyseqK rmorphM /= -EA => E2. have : mapf (Poly h) %| fb ca *: Poly a by rewrite E2 dvdp_mulr. by rewrite dvdpZr // fb_eq0.
    + have := congr1 mapf EQ. rewrite polyseqK rmorphM /= -EB => E2. have : mapf (Poly h) %| fb cb *: Poly b by rewrite E2 dvdp_mulr. by rewrite dvdpZr // fb_eq0.
Qed.
Lemma assoc_fof (h h' : seq R) (g g' : seq K) k k' : @rprime PR h -> @rprime PR h' -> (1 < size (Poly h))%N -> (1 < size (Poly h'))%N -> k != 0 -> k' != 0 ->
  Poly g = k *: mapf (Poly h) -> Poly g' = k' *: mapf (Poly h') -> @rassoc PK g g' -> @rassoc PR h h'.
Proof.
  move=> Hh Hh' Sh Sh' k0 k0' Eg Eg' [u [/punitE [v Uv Ev] /p_equalP E]]. rewrite pmulE Ev mul_polyC Eg Eg' scalerA in E.
  have v0 : v != 0 by move: Uv; rewrite unitfE. have w0 : v * k' != 0 by rewrite mulf_neq0.
  have [|Q EQ] := (rdvdR h h').1. { apply: prime_dvd => //. rewrite -(dvdpZr _ _ w0) -E dvdpZr //. }
  have [|Q' EQ'] := (rdvdR h' h).1. { apply: prime_dvd => //. rewrite -(dvdpZr _ _ k0) E dvdpZr //. }
  have h0 : Poly h' != 0 by rewrite -size_poly_gt0; exact: ltn_trans Sh'.
  have E1 : Q' * Q = 1. { apply: (mulfI h0). by rewrite mulrA -EQ' -EQ mulr1. }
  exists (polyseq Q'). split; last by apply/p_equalP; rewrite pmulE polyseqK mulrC -EQ'.
  exists (polyseq Q). apply/p_equalP. by rewrite pmulE !polyseqK E1 -[Poly (@r1 PR)]/(Poly [:: 1]) Poly1 polyC1.
Qed.
(* the loop over the factors *)
Notation monicf A := ((fb (lead_coef A))^-1 *: mapf A).
Lemma fof_loop (fs : seq (seq R * N)) : (forall x, List.In x fs -> Poly x.1 != 0) -> forall U acc, exists U' l,
  [/\ @fof_factors O OK fb kdiv kffa fs U acc = Some (U', acc ++ l), List.Forall2 (fun x (y : seq K * N) => Poly y.1 = monicf (Poly x.1) /\ y.2 = x.2) fs l &
    Poly U' = (\prod_(x <- fs) fb (lead_coef (Poly x.1))) *: Poly U].
Proof.
  elim: fs => [|[f k] fs IH] H0 U acc.
  - exists U, [::]. split=> /=; [by rewrite cats0|by constructor|by rewrite big_nil scale1r].
  - have f0 : Poly (f : seq R) != 0 by exact: (H0 (f, k) (or_introl erefl)).
    have mf0 : Poly (map fb f : seq KI) != 0 by rewrite Poly_map mapf_eq0.
    have [f' [Ef Ef']] := pffa_field KD KF KA mf0. 
    have [|U' [l [E1 E2 E3]]] := IH _ (@p_mul OK U [:: lead_coef (Poly (map fb f : seq KI))]) (acc ++ [:: (f', k)]); first by move=> x Hx; apply: H0; right.
    exists U', ((f', k) :: l). split.
    + cbn [fof_factors]. rewrite -/(map fb f) mapE Ef. cbn [obind fst snd]. by rewrite E1 -catA.
    + constructor=> //. split=> //=. by rewrite Ef' Poly_map lead_mapf.
    + rewrite E3 p_mulE Poly_polyseq Poly1 Poly_map lead_mapf big_cons /= [Poly U * _]mulrC mul_polyC scalerA. by rewrite mulrC.
Qed.
End S.
