(* Kronecker's algorithm (FacModel.find_factor_kronecker). *)
From Coq Require Import List Arith NArith Bool.
From mathcomp Require Import all_ssreflect all_algebra separable.
From mathcomp Require Import zify.
From Coq Require Import Lia.
From Verif Require Import RingSpec RingModel RingProofs FactoredSpec FactoredModel FactoredProofs PermModel MatModel MatSpec PolyModel PolyProofs PolyProofs2 PolyProofs3 PolyProofs11 PolyProofs12 PolyProps FacModel FacProofs FacProofs2.
Close Scope rs_scope.
Set Implicit Arguments.
Unset Strict Implicit.
Unset Printing Implicit Defensive.
Import GRing.Theory.
Local Open Scope ring_scope.

Section K.
Variable R : idomainType.
Notation O := (mc_ops R).
Notation P := (poly_ops O).
Variable div : div_op O.
Hypothesis D : idom_laws O div.
Variable ffa : ffa_op O.
Hypothesis F : ffa_laws O ffa.
Variable gcd : R -> R -> R.
Hypothesis G : gcd_laws O ffa gcd.
Notation GE := (GE G).
Implicit Types (f g h a b : seq R) (A B Q H : {poly R}).

(* a primitive polynomial without a factorisation into nonconstants is prime *)
Lemma prim_irr_prime f : prim (Poly f) -> (1 < size (Poly f))%N ->
  (forall g h : {poly R}, Poly f = g * h -> (size g <= 1)%N \/ (size h <= 1)%N) -> @rprime P f.
Proof.
  move=> Hf Hs Hi. have Hf0 := prim_neq0 Hf. split; last split.
  - apply/negP => /p_equalP /eqP. by rewrite /= (negPf Hf0).
  - move/punitE => [u U E]. move: Hs. by rewrite E ltnNge size_polyC_leq1.
  - move=> a b [c /p_equalP]. rewrite !pmulE => E.
    have ex_dv d : Poly f %| Poly d -> @rdvd P f d.
    { move=> /(prim_dvdp GE Hf) [Q EQ]. exists (polyseq Q). apply/p_equalP. by rewrite pmulE Poly_polyseq mulrC. }
    set d := gcdp (Poly f) (Poly a). have Hd0 : d != 0 by rewrite gcdp_eq0 (negPf Hf0).
    have [k [d' [Ed Hk Hd']]] := prim_fact GE Hd0. have Edd : d %= d' by rewrite Ed eqp_scale.
    have [|Q EQ] := prim_dvdp GE Hd' (B := Poly f); first by rewrite -(eqp_dvdl _ Edd) dvdp_gcdl.
    case: (Hi _ _ EQ) => Hsz.
    + left. apply: ex_dv. have HQ0 : Q != 0 by apply/eqP => Z; move: Hf0; rewrite EQ Z mul0r eqxx.
      have : Poly f %= d'. { rewrite EQ (size1_polyC Hsz) mul_polyC. apply: eqp_scale. apply/eqP => Z. move: HQ0. by rewrite (size1_polyC Hsz) Z polyC0 eqxx. }
      move=> Efd. rewrite (eqp_dvdl _ Efd) -(eqp_dvdl _ Edd). exact: dvdp_gcdr.
    + right. apply: ex_dv. have Hc : coprimep (Poly f) (Poly a).
      { rewrite /coprimep -/d (eqp_size Edd) eqn_leq Hsz size_poly_gt0. apply: prim_neq0 Hd'. }
      rewrite -(Gauss_dvdpr _ Hc) E. exact: dvdp_mulr.
Qed.

Variables (factor : R -> option (factored O)) (units : seq R) (elems : nat -> R).
Notation okR := (okfR ffa).
Hypothesis FA : forall c : R, c != 0 -> exists cf, [/\ factor c = Some cf, okR cf & @expand O cf = c].
Hypothesis UN : forall u, List.In u units <-> u \is a GRing.unit.
Hypothesis EL : injective elems.
Definition okpt (A : {poly R}) (p : R * factored O) := [/\ A.[p.1] != 0, okR p.2 & @expand O p.2 = A.[p.1]].

Lemma sample_ok f need : Poly f != 0 -> forall fuel k (pts : seq (R * factored O)) rts,
  uniq rts -> all (root (Poly f)) rts -> (k = size pts + size rts)%N -> (need + (size (Poly f)).-1 <= fuel + k)%N ->
  uniq (map fst pts) -> (forall x, x \in map fst pts ++ rts -> exists2 j, (j < k)%N & x = elems j) -> (forall p, List.In p pts -> okpt (Poly f) p) -> (size pts <= need)%N ->
  exists pts', [/\ @sample O factor elems fuel f need k pts = Some pts', size pts' = need, uniq (map fst pts') & forall p, List.In p pts' -> okpt (Poly f) p].
Proof.
  move=> Hf. have roots rts : uniq rts -> all (root (Poly f)) rts -> (size rts <= (size (Poly f)).-1)%N.
  { move=> U Ar. have := max_poly_roots Hf Ar U. by case: (size (Poly f)) => //=. }
  set s := (size (Poly f)).-1 in roots *. clearbody s.
  elim=> [|fuel IH] k pts rts U Ar Ek Hn Up Hx Hp Hs; cbn [sample]; rewrite lengthE.
  - have Hr := roots rts U Ar. have E : size pts = need. { apply/eqP. rewrite eqn_leq Hs -(leq_add2r s). apply: leq_trans Hn _. by rewrite add0n Ek leq_add2l. } have -> : (need <=? size pts)%N = true by apply/Nat.leb_le; lia. by exists pts.
  - case: (Nat.leb_spec need (size pts)) => Hle. { exists pts. split=> //. apply/eqP. rewrite eqn_leq Hs. exact/leP. }
    have new : elems k \notin map fst pts ++ rts. { apply/negP => /Hx [j Hj /EL E]. move: Hj. by rewrite E ltnn. }
    rewrite mem_cat negb_or in new. have /andP[N1 N2] := new. rewrite p_evaluateE /is_zero /=. case: (@eqP _ (Poly f).[elems k] 0) => [E0|/eqP E0] /=.
    + have -> : (k + 1)%coq_nat = k.+1 by lia. apply: (IH _ _ (elems k :: rts)) => //=.
      * by rewrite N2.
      * by rewrite Ar andbT; apply/eqP.
      * by rewrite addnS Ek.
      * by rewrite addnS -addSn.
      * move=> x. rewrite mem_cat inE orbCA -mem_cat => /orP[/eqP ->|/Hx [j Hj ->]]; [by exists k|]. exists j => //. exact: ltnW.
    + have [cf [E1 E2 E3]] := FA E0. rewrite E1. cbn [obind]. have -> : (k + 1)%coq_nat = k.+1 by lia. have -> : List.app pts [:: (elems k, cf)] = rcons pts (elems k, cf) by rewrite -cats1. apply: (IH _ _ rts) => //=.
      * by rewrite size_rcons addSn Ek.
      * by rewrite addnS -addSn.
      * by rewrite map_rcons rcons_uniq N1.
      * move=> x. rewrite map_rcons mem_cat mem_rcons inE -orbA -mem_cat => /orP[/eqP ->|/Hx [j Hj ->]]; [by exists k|]. exists j => //. exact: ltnW.
      * move=> p. rewrite -cats1 => /List.in_app_iff [/Hp //|[<-|//]]. by split.
      * rewrite size_rcons. exact/leP.
Qed.
Lemma insert_key_perm x l : Permutation.Permutation (x :: l) (@insert_key O x l).
Proof.
  elim: l => [|y l IH] /=; first exact: Permutation.Permutation_refl. case: ifP => _; first exact: Permutation.Permutation_refl.
  apply: Permutation.perm_trans (Permutation.perm_swap _ _ _) _. exact: Permutation.perm_skip.
Qed.
Lemma sort_key_perm l : Permutation.Permutation l (@sort_key O l).
Proof. elim: l => [|x l IH] /=; first exact: Permutation.perm_nil. apply: Permutation.perm_trans (insert_key_perm _ _). exact: Permutation.perm_skip. Qed.
Lemma perm_uniq_fst (l m : seq (R * factored O)) : Permutation.Permutation l m -> uniq (map fst l) -> uniq (map fst m).
Proof.
  move=> H U. have /perm_uniq <- // : perm_eq (map fst l) (map fst m). elim: H {U} => //=.
  - move=> x l1 l2 _ H. by rewrite perm_cons.
  - move=> x y l1. by rewrite (perm_catCA [:: _] [:: _]) perm_refl.
  - move=> l1 l2 l3 _ H1 _ H2. exact: perm_trans H1 H2.
Qed.
(* what find_factor_kronecker keeps: m + 1 good points with distinct abscissae *)
Lemma kept_ok (A : {poly R}) n (pts : seq (R * factored O)) : (n <= size pts)%N -> uniq (map fst pts) -> (forall p, List.In p pts -> okpt A p) ->
  let l := List.rev (List.firstn n (@sort_key O pts)) in size l = n /\ uniq (map fst l) /\ forall p, List.In p l -> okpt A p.
Proof.
  move=> Hn U Hp l. have HP := sort_key_perm pts. have Hl : length (@sort_key O pts) = size pts by rewrite -(Permutation.Permutation_length HP) lengthE.
  split; first by rewrite /l -lengthE List.rev_length List.firstn_length Hl; lia. split.
  - rewrite /l revE map_rev rev_uniq. have U2 := perm_uniq_fst HP U. move: U2. rewrite -{1}(List.firstn_skipn n (@sort_key O pts)) map_cat cat_uniq. by case/andP.
  - move=> p Hin. apply: Hp. apply: (Permutation.Permutation_in _ (Permutation.Permutation_sym HP)). move: Hin. rewrite /l -List.in_rev => H. rewrite -(List.firstn_skipn n (@sort_key O pts)). apply/List.in_app_iff. by left.
Qed.

Definition gp s (pts : seq (R * factored O)) : seq (seq (R * R)) :=
  List.map (fun ip => List.map (fun y => (fst (snd ip), y)) (@y_divs O units (fst ip) (snd (snd ip)))) (List.combine (List.seq s (length pts)) pts).
Lemma gp_cons s p pts : gp s (p :: pts) = List.map (fun y => (p.1, y)) (@y_divs O units s p.2) :: gp s.+1 pts.
Proof. by []. Qed.
Lemma in_cart (T : Type) (l : seq T) ls c : List.In c (cartesian (l :: ls)) <-> exists x c', [/\ c = x :: c', List.In x l & List.In c' (cartesian ls)].
Proof.
  cbn [cartesian]. rewrite List.in_flat_map. split.
  - case=> x [H1 /List.in_map_iff [c' [<- H2]]]. by exists x, c'.
  - case=> x [c' [-> H1 H2]]. exists x. split=> //. exact: List.in_map.
Qed.
Lemma dvR x y : @rdvd O x y -> y != 0 -> x != 0.
Proof. move/rdvdE => [q ->] H. apply/eqP => Z. by move: H; rewrite Z mulr0 eqxx. Qed.
Lemma y_divs_sound (A : {poly R}) p s y : okpt A p -> List.In y (@y_divs O units s p.2) -> y != 0.
Proof.
  move=> [H1 [U V _] H3]. have [HS _] := divisors_ok O div D p.2 U V. rewrite H3 in HS. rewrite /y_divs. case: ifP => _; first by move=> /HS /dvR; apply.
  move/List.in_flat_map => [d [/HS /dvR /(_ H1) Hd /List.in_map_iff [u [<- /UN Hu]]]]. apply: mulf_neq0 => //. apply/eqP => Z. by move: Hu; rewrite Z unitr0.
Qed.
Lemma gp_sound (A : {poly R}) pts : (forall p, List.In p pts -> okpt A p) -> forall s c, List.In c (cartesian (gp s pts)) -> map fst c = map fst pts /\ forall p, p \in c -> p.2 != 0.
Proof.
  elim: pts => [|p pts IH] Hp s c; first by case=> // <-. rewrite gp_cons in_cart => -[x [c' [-> /List.in_map_iff [y [<- Hy]] Hc]]].
  have [|H1 H2] := IH _ _ _ Hc; first by move=> q Hq; apply: Hp; right. split=> /=; first by rewrite H1. move=> q. rewrite inE => /orP[/eqP ->|/H2 //] /=. apply: y_divs_sound Hy. apply: Hp. by left.
Qed.
Lemma divs_all (A : {poly R}) p (B : {poly R}) : okpt A p -> (exists C, A = C * B) -> exists d u, [/\ List.In d (@divisors O p.2), u \is a GRing.unit & B.[p.1] = u * d].
Proof.
  move=> [H1 [U V _] H3] [C E]. have [_ [HC _]] := divisors_ok O div D p.2 U V. have [|d [Hd [u [Hu /eqP Eu]]]] := HC B.[p.1].
  { rewrite H3. apply/rdvdE. exists C.[p.1]. by rewrite E hornerM. }
  exists d, u. split=> //. exact/runitE.
Qed.
Lemma gp_complete_S (A : {poly R}) (B : {poly R}) pts : (exists C, A = C * B) -> (forall p, List.In p pts -> okpt A p) -> forall s,
  List.In [seq (p.1, B.[p.1]) | p <- pts] (cartesian (gp s.+1 pts)).
Proof.
  move=> HB. elim: pts => [|p pts IH] Hp s; first by left. rewrite gp_cons in_cart. exists (p.1, B.[p.1]), [seq (p.1, B.[p.1]) | p <- pts]. split=> //.
  - apply/List.in_map_iff. exists B.[p.1]. split=> //. rewrite /y_divs /=. have [|d [u [H1 H2 H3]]] := divs_all (p := p) _ HB; first by apply: Hp; left.
    apply/List.in_flat_map. exists d. split=> //. apply/List.in_map_iff. exists u. split; [by rewrite H3|exact/UN].
  - apply: IH => q Hq. apply: Hp. by right.
Qed.
Lemma gp_complete (A : {poly R}) (B : {poly R}) pts : (exists C, A = C * B) -> (forall p, List.In p pts -> okpt A p) -> exists2 u, u \is a GRing.unit &
  List.In [seq (p.1, (u *: B).[p.1]) | p <- pts] (cartesian (gp 0 pts)).
Proof.
  case: pts => [|p pts] HB Hp; first by exists 1; [exact: unitr1|left]. have [|d [u [H1 H2 H3]]] := divs_all (p := p) _ HB; first by apply: Hp; left.
  exists u^-1; first by rewrite unitrV. rewrite gp_cons in_cart. exists (p.1, (u^-1 *: B).[p.1]), [seq (p.1, (u^-1 *: B).[p.1]) | p <- pts]. split=> //.
  - apply/List.in_map_iff. exists d. split=> //. by rewrite hornerZ H3 mulKr.
  - apply: gp_complete_S; last by move=> q Hq; apply: Hp; right. case: HB => C E. exists (u *: C). by rewrite E -scalerAl -scalerAr scalerA divrr // scale1r.
Qed.
Lemma try_points_ok f n cands : Poly f != 0 -> (forall c, List.In c cands -> [/\ distinct_abscissae c, size c = n.+1 & forall p, p \in c -> p.2 != 0]) ->
  exists r, @try_points O div f cands = Some r /\ match r with
  | FFComposite g h => [/\ Poly f = Poly h * Poly g, (1 < size (Poly g))%N & (size (Poly g) <= n.+1)%N]
  | FFIrreducible => forall c B, List.In c cands -> interpolates B c -> (size B <= n.+1)%N -> (1 < size B)%N -> forall C, Poly f <> C * B end.
Proof.
  move=> Hf. elim: cands => [|c cands IH] Hc; first by exists FFIrreducible. cbn [try_points]. have [Hd Hsz Hnz] := Hc c (or_introl erefl).
  have [|r [Er Hr]] := IH; first by move=> c' Hc'; apply: Hc; right.
  have := C25_lagrange D c. case: interpolate_by_lagrange_basis => [[g|]|] //.
  - move=> [_ [Hg Sg]]. rewrite Hsz in Sg. cbn [obind]. rewrite p_degreeE. have Hg0 : Poly g != 0.
    { apply/eqP => Z. case: c Hsz Hnz Hg {Hc Hd} => // p c _ Hnz Hg. have := Hg p (mem_head _ _). rewrite Z horner0 => E. have := Hnz p (mem_head _ _). by rewrite -E eqxx. }
    have uni B : interpolates B c -> (size B <= n.+1)%N -> B = Poly g by move=> HB SB; apply: (C25_unique Hd HB Hg); rewrite Hsz.
    case Eg: (size (Poly g)) => [|[|m]]; first by move: Hg0; rewrite -size_poly_eq0 Eg.
    + cbn [obind Nat.leb]. exists r. split=> //. case: r Hr {Er} => // Hr c' B [<-|Hc'] HB SB SB1 C; last exact: Hr Hc' HB SB SB1 C. by move: SB1; rewrite (uni B) // Eg.
    + cbn [obind Nat.leb]. rewrite (p_div_total D). cbn [obind]. have := pdivP D f g. case: pdiv => [h||].
      * case=> _ E. exists (FFComposite (R := P) g h). split=> //. split=> //; by rewrite Eg // -Eg.
      * move=> Z. by move: Hg0; rewrite Z eqxx.
      * case=> _ HQ. exists r. split=> //. case: r Hr {Er} => // Hr c' B [<-|Hc'] HB SB SB1 C; last exact: Hr Hc' HB SB SB1 C. by rewrite (uni B).
  - case=> _ Hno. cbn [obind]. exists r. split=> //. case: r Hr {Er} => // Hr c' B [<-|Hc'] HB SB SB1 C; last exact: Hr Hc' HB SB SB1 C. by case: (Hno B HB).
Qed.
Lemma interp_self (B : {poly R}) (l : seq (R * factored O)) : interpolates B [seq (p.1, B.[p.1]) | p <- l].
Proof. elim: l => [|q l IH] p //=. by rewrite inE => /orP[/eqP ->|/IH]. Qed.
Lemma kronecker_ok f : prim (Poly f) -> (1 < size (Poly f))%N -> exists r, @find_factor_kronecker O div factor units elems f = Some r /\ match r with
  | FFComposite g h => [/\ Poly f = Poly g * Poly h, prim (Poly g), prim (Poly h), (1 < size (Poly g))%N & (1 < size (Poly h))%N]
  | FFIrreducible => @rprime P f end.
Proof.
  move=> Hf Hs. have Hf0 := prim_neq0 Hf. rewrite /find_factor_kronecker p_degreeE. case Es: (size (Poly f)) Hs => [|[|m]] // _. cbn [obind].
  case: (Nat.eqb_spec m.+1 1) => [E1|Hne].
  { exists FFIrreducible. split=> //. apply: prim_irr_prime => //; first by rewrite Es. move=> g h E. have Hg0 : g != 0 by apply/eqP => Z; move: Hf0; rewrite E Z mul0r eqxx. have Hh0 : h != 0 by apply/eqP => Z; move: Hf0; rewrite E Z mulr0 eqxx.
    have := size_mul Hg0 Hh0. rewrite -E Es. set x := size g. set y := size h. lia. }
  set mx := (m.+1 / 2)%nat. have Hmx : (mx * 2 <= m.+1 < mx * 2 + 2)%N. { have := Nat.div_mod m.+1 2. have := Nat.mod_upper_bound m.+1 2. rewrite -/mx. lia. }
  set need := (3 * (mx + 1))%coq_nat.
  have [||pts [E1 E2 E3 E4]] := @sample_ok f need Hf0 (need + m.+1)%coq_nat 0%N [::] [::] isT isT erefl _ isT _ (fun _ => False_ind _) isT; rewrite ?Es //; try lia.
  rewrite E1. cbn [obind]. have [|K1 [K2 K3]] := kept_ok (A := Poly f) (n := mx + 1) _ E3 E4; first by rewrite E2 /need; lia. set l := List.rev _ in K1 K2 K3 *.
  change (@g_points O units l) with (gp 0 l). have Hcand c : List.In c (cartesian (gp 0 l)) -> [/\ distinct_abscissae c, size c = mx.+1 & forall p, p \in c -> p.2 != 0].
  { move=> /(gp_sound K3) [H1 H2]. split=> //; first by rewrite /distinct_abscissae H1. have := congr1 size H1. by rewrite !size_map K1 addn1. }
  have [r [Er Hr]] := try_points_ok Hf0 Hcand. exists r. split=> //. case: r Hr {Er} => [Hr|g h [E Hg1 Hg2]].
  - apply: prim_irr_prime => //; first by rewrite Es.
    have small (g h : {poly R}) : Poly f = h * g -> (size g <= size h)%N -> (size g <= 1)%N.
    { move=> E Hgh. rewrite leqNgt. apply/negP => Hg. have Hg0 : g != 0 by apply/eqP => Z; move: Hf0; rewrite E Z mulr0 eqxx. have Hh0 : h != 0 by apply/eqP => Z; move: Hf0; rewrite E Z mul0r eqxx.
      have Hgm : (size g <= mx.+1)%N. { have := size_mul Hh0 Hg0. rewrite -E Es. move: Hgh Hg. set x := size g. set y := size h. lia. }
      have [u Hu Hin] := gp_complete (A := Poly f) (B := g) (ex_intro _ h E) K3. have Hu0 : u != 0 by apply/eqP => Z; move: Hu; rewrite Z unitr0.
      apply: (Hr _ (u *: g) Hin _ _ _ (u^-1 *: h)); rewrite ?size_scale //.
      - exact: interp_self.
      - by rewrite -scalerAl -scalerAr scalerA mulVr // scale1r. }
    move=> g h E. case: (leqP (size g) (size h)) => H; [left|right]; first by apply: (small g h) => //; rewrite mulrC. apply: (small h g) => //. exact: ltnW.
  - have Hg0 : Poly g != 0 by rewrite -size_poly_gt0; exact: ltn_trans Hg1. have Hh0 : Poly h != 0 by apply/eqP => Z; move: Hf0; rewrite E Z mul0r eqxx.
    split=> //; first by rewrite mulrC. 1: exact: prim_dv Hf E. 1: by apply: (prim_dv (C := Poly g) Hf); rewrite mulrC.
    have := size_mul Hh0 Hg0. rewrite -E Es. move: Hg2 Hmx Hne. clear. set x := size (Poly g). set y := size (Poly h). lia.
Qed.
End K.
