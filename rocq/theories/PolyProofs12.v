(* factor_primitive, gcd_by_primitive_subresultant, primitive_squarefree_part over a GCD domain. *)
From Coq Require Import List Arith NArith Bool.
From mathcomp Require Import all_ssreflect all_algebra all_field separable.
From mathcomp Require Import zify.
From Coq Require Import Lia.
From Verif Require Import RingSpec RingModel RingProofs PermModel MatModel MatSpec MatProofs MatProofs2 PolyModel PolySpec PolyProofs PolyProofs2 PolyProofs3 PolyProofs8 PolyProofs9 PolyProofs10 PolyProofs11.
Close Scope rs_scope.
Set Implicit Arguments.
Unset Strict Implicit.
Unset Printing Implicit Defensive.
Import GRing.Theory.
Local Open Scope ring_scope.

Section M.
Variable R : idomainType.
Notation O := (mc_ops R).
Variable div : div_op O.
Hypothesis D : idom_laws O div.
Variable ffa : ffa_op O.
Variable gcd : R -> R -> R.
Hypothesis G : gcd_laws O ffa gcd.
Implicit Types (a b p : seq R) (A B P Q : {poly R}) (x y c d : R).
Notation dv := (@dv R).
Notation prim := (@prim R).

Lemma In_mem (x : R) l : List.In x l <-> x \in l.
Proof. elim: l => [|y l IH] //=. rewrite inE. split=> [[->|/IH ->]|/orP[/eqP ->|/IH]]; rewrite ?eqxx ?orbT //; by [left|right]. Qed.
Lemma gcd_listP l : let g := @gcd_list O gcd l in (forall x, x \in l -> dv g x) /\ forall d, (forall x, x \in l -> dv d x) -> dv d g.
Proof.
  have [H1 H2] := @gcd_list_ok O (@mc_ring R) ffa gcd G l. split.
  - move=> x /In_mem /H1. by rewrite rdvdE.
  - move=> d H. apply/rdvdE. apply: H2 => x /In_mem /H. by rewrite rdvdE.
Qed.
Lemma GE : gcd_ex R. Proof. move=> l. exists (@gcd_list O gcd l). exact: gcd_listP. Qed.
Lemma gcdP x y : [/\ dv (gcd x y) x, dv (gcd x y) y & forall d, dv d x -> dv d y -> dv d (gcd x y)].
Proof. have [[H1 [H2 H3]] _] := G x y. split; [exact/rdvdE|exact/rdvdE|]. move=> d Hx Hy. apply/rdvdE. apply: H3; exact/rdvdE. Qed.
Lemma mapM_dv u l : u != 0 -> (forall c, c \in l -> dv u c) -> exists l', mapM (fun c => match div c u with DivOk q => Some q | _ => None end) l = Some l' /\ l = map (fun c => c * u) l'.
Proof.
  move=> U. elim: l => [|c l IH] H; first by exists [::]. have [|l' [E1 E2]] := IH; first by move=> x Hx; apply: H; rewrite inE Hx orbT.
  cbn [mapM]. have [q0 Eq] := H c (mem_head _ _). have := divP D c u. case: div => [q||].
  - case=> E _. exists (q :: l'). cbn [obind]. by rewrite E1 /= -E2 E.
  - move=> Z. by move: U; rewrite Z eqxx.
  - case=> _ K. by case: (K q0).
Qed.
Lemma dvp_mem d p : dvp d (Poly p) <-> forall c, c \in p -> dv d c.
Proof.
  split.
  - move=> H c /(nthP 0) [i _ <-]. have := H i. by rewrite coef_Poly.
  - move=> H i. rewrite coef_Poly. case: (ltnP i (size p)) => Hi; first by apply: H; rewrite mem_nth. rewrite nth_default //. exact: dv0.
Qed.
Lemma fp_zero p : Poly p = 0 -> @factor_primitive O div gcd p = Some None.
Proof. by rewrite /factor_primitive p_is_zeroE => ->; rewrite eqxx. Qed.
Lemma fp_ok p : Poly p != 0 -> exists g q, [/\ @factor_primitive O div gcd p = Some (Some (g, q)), Poly p = g *: Poly q, g != 0, prim (Poly q) & size q = size p].
Proof.
  move=> Hp. rewrite /factor_primitive p_is_zeroE (negPf Hp). set g := gcd_list _ _. have [H1 H2] := gcd_listP p. rewrite -/g in H1 H2.
  have Hg : g != 0. { apply/eqP => Z. move: Hp. case/eqP. apply/polyP => i. rewrite coef0. have /dvp_mem /(_ i) := H1. rewrite Z => -[q ->]. by rewrite mulr0. }
  have [q [E1 E2]] := mapM_dv Hg H1. rewrite E1. cbn [obind]. exists g, q.
  have EP : Poly p = g *: Poly q by rewrite {1}E2 Poly_mapM mul_polyC.
  split=> //; last by rewrite E2 size_map.
  move=> d Hd. have : dv (g * d) g. { apply: H2. apply/dvp_mem => i. rewrite EP coefZ. have [t ->] := Hd i. exists t. by rewrite mulrCA. }
  rewrite -[X in dv _ X]mulr1. exact: dv_cancel.
Qed.
(* the factorisation is unique up to units *)
Lemma prim_fact_uniq c d A B : c != 0 -> prim A -> prim B -> c *: A = d *: B -> dv c d /\ dv d c.
Proof.
  move=> Hc HA HB E. split.
  - apply: (dvp_prim GE HB). rewrite -E. exact: dvp_scale.
  - apply: (dvp_prim GE HA). rewrite E. exact: dvp_scale.
Qed.
Lemma fpu_ok p : Poly p != 0 -> exists g q, [/\ @factor_primitive_unwrap O div gcd p = Some (g, q), Poly p = g *: Poly q, g != 0 & prim (Poly q)].
Proof. move=> Hp. have [g [q [E1 E2 E3 E4 _]]] := fp_ok Hp. exists g, q. by rewrite /factor_primitive_unwrap E1. Qed.
Lemma unit_gcd x y : dv (gcd x y) 1 -> forall e, dv e x -> dv e y -> dv e 1.
Proof. move=> H e Hx Hy. have [_ _ H3] := gcdP x y. exact: dv_trans (H3 _ Hx Hy) H. Qed.
Lemma prim_eqp A B : prim A -> prim B -> A %= B -> exists u, dv u 1 /\ A = u *: B.
Proof.
  move=> HA HB /andP[H1 H2]. have [Q EQ] := prim_dvdp GE HA H1. have [P EP] := prim_dvdp GE HB H2.
  have E : P * Q = 1. { apply: (@mulIf _ A (prim_neq0 HA)). by rewrite mul1r -mulrA -EQ -EP. }
  have HP0 : P != 0 by apply/eqP => Z; move/eqP: E; rewrite Z mul0r eq_sym oner_eq0. have HQ0 : Q != 0 by apply/eqP => Z; move/eqP: E; rewrite Z mulr0 eq_sym oner_eq0.
  have sP : (size P <= 1)%N. { have := size_mul HP0 HQ0. rewrite E size_poly1. move: HQ0. rewrite -size_poly_gt0. set s := size P. set t := size Q. lia. }
  have EC := size1_polyC sP. exists P`_0. split.
  - exists Q`_0. have := congr1 (fun p : {poly R} => p`_0) E. rewrite coefM big_ord_recl big_ord0 addr0 /= coefC eqxx mulrC //.
  - by rewrite EP EC mul_polyC coefC eqxx.
Qed.
Lemma gcdps_ok a b : Poly a != 0 -> Poly b != 0 -> exists g, [/\ @gcd_by_primitive_subresultant O div gcd a b = Some g, prim (Poly g),
  (exists q, Poly a = q * Poly g), (exists q, Poly b = q * Poly g) & forall d : {poly R}, prim d -> (exists q, Poly a = q * d) -> (exists q, Poly b = q * d) -> exists q, Poly g = q * d].
Proof.
  move=> Ha Hb. rewrite /gcd_by_primitive_subresultant !p_is_zeroE (negPf Ha) (negPf Hb).
  have [ca [a' [Ea1 Ea2 Ea3 Ea4]]] := fpu_ok Ha. have [cb [b' [Eb1 Eb2 Eb3 Eb4]]] := fpu_ok Hb. rewrite Ea1 Eb1. cbn [obind fst snd].
  have := sgcd_ok D a' b'. case: subresultant_gcd => [sg|]; last by case=> Z _; move: (prim_neq0 Ea4); rewrite Z eqxx. case=> _ Hsg.
  have Hsg0 : Poly sg != 0 by rewrite -size_poly_eq0 -(eqp_size Hsg) size_poly_eq0 gcdp_eq0 (negPf (prim_neq0 Ea4)).
  cbn [obind]. have [cs [s' [Es1 Es2 Es3 Es4]]] := fpu_ok Hsg0. rewrite Es1. cbn [obind fst snd].
  set u := gcd ca cb. have Hu : u != 0. { apply/eqP => Z. have [[q Eq] _ _] := gcdP ca cb. move: Ea3. by rewrite Eq -/u Z mulr0 eqxx. }
  have EP : Poly (@p_mul O [:: u] s') = u *: Poly s' by rewrite p_mulE Poly_polyseq Poly_c mul_polyC.
  have Hm : Poly (@p_mul O [:: u] s') != 0 by rewrite EP scale_poly_eq0 negb_or Hu (prim_neq0 Es4).
  have [c [g [E1 E2 E3 E4 _]]] := fp_ok Hm. rewrite /primitive_part E1. cbn [obind]. exists g.
  have Hgs : Poly g %= gcdp (Poly a') (Poly b').
  { apply: eqp_trans (_ : Poly sg %= _); last by rewrite eqp_sym. rewrite Es2. apply: eqp_trans (_ : Poly s' %= _); last by rewrite eqp_sym eqp_scale.
    apply: eqp_trans (_ : c *: Poly g %= _); first by rewrite eqp_sym eqp_scale. by rewrite -E2 EP eqp_scale. }
  split=> //.
  - apply: (prim_dvdp GE) => //. by rewrite Ea2 (eqp_dvdl _ Hgs) dvdpZr // dvdp_gcdl.
  - apply: (prim_dvdp GE) => //. by rewrite Eb2 (eqp_dvdl _ Hgs) dvdpZr // dvdp_gcdr.
  - move=> d Hd [qa Eqa] [qb Eqb]. apply: (prim_dvdp GE) => //. rewrite (eqp_dvdr _ Hgs) dvdp_gcd. apply/andP; split.
    + by rewrite -(dvdpZr _ _ Ea3) -Ea2 Eqa dvdp_mull.
    + by rewrite -(dvdpZr _ _ Eb3) -Eb2 Eqb dvdp_mull.
Qed.
(* the full gcd: the content gcd times it *)
Lemma gcdps_full a b g : Poly a != 0 -> Poly b != 0 -> @gcd_by_primitive_subresultant O div gcd a b = Some g ->
  exists ca cb qa qb, [/\ @factor_primitive O div gcd a = Some (Some (ca, qa)), @factor_primitive O div gcd b = Some (Some (cb, qb)) &
   let h := gcd ca cb *: Poly g in [/\ exists q, Poly a = q * h, exists q, Poly b = q * h & forall d : {poly R}, (exists q, Poly a = q * d) -> (exists q, Poly b = q * d) -> exists q, h = q * d]].
Proof.
  move=> Ha Hb Eg. have [g' [Eg' Hg [qa Eqa] [qb Eqb] Hd]] := gcdps_ok Ha Hb. have Eg2 : g' = g by move: Eg'; rewrite Eg => -[]. rewrite {g' Eg'}Eg2 in Hg Eqa Eqb Hd.
  have [ca [a' [Ea1 Ea2 Ea3 Ea4 _]]] := fp_ok Ha. have [cb [b' [Eb1 Eb2 Eb3 Eb4 _]]] := fp_ok Hb. exists ca, cb, a', b'. split=> //=.
  have [[ta Eta] [tb Etb] Hu] := gcdP ca cb. set u := gcd ca cb in Eta Etb Hu *.
  have part A c A' q t : A = c *: A' -> prim A' -> c != 0 -> A = q * Poly g -> c = t * u -> exists q, A = q * (u *: Poly g).
  { move=> E1 HA' Hc E2 Et. have [Q EQ] : exists Q, A' = Q * Poly g by apply: (prim_dvdp GE) => //; rewrite -(dvdpZr _ _ Hc) -E1 E2 dvdp_mull.
    exists (t *: Q). by rewrite E1 EQ Et -scalerAl -scalerAr scalerA. }
  split.
  - exact: (part _ _ _ _ _ Ea2 Ea4 Ea3 Eqa Eta).
  - exact: (part _ _ _ _ _ Eb2 Eb4 Eb3 Eqb Etb).
  - move=> d [pa Epa] [pb Epb]. have Hd0 : d != 0 by apply/eqP => Z; move: Ha; rewrite Epa Z mulr0 eqxx.
    have [c [d' [E1 E2 E3]]] := prim_fact GE Hd0. 
    have cont A x A' q : A = x *: A' -> prim A' -> A = q * d -> dv c x.
    { move=> EA HA' Eq. apply: (dvp_prim GE HA'). rewrite -EA Eq E1 -scalerAr. exact: dvp_scale. }
    have [||Q EQ] := Hd d' E3. 1: by exists (c *: pa); rewrite Epa E1 -scalerAl scalerAr. 1: by exists (c *: pb); rewrite Epb E1 -scalerAl scalerAr.
    have [t Et] : dv c u by apply: Hu; [exact: (cont _ _ _ _ Ea2 Ea4 Epa)|exact: (cont _ _ _ _ Eb2 Eb4 Epb)].
    exists (t *: Q). by rewrite EQ Et E1 -scalerAl -scalerAr scalerA.
Qed.
Section Char0.
Hypothesis char0 : forall n, (n.+1)%:R != 0 :> R.
Lemma radical P S g : P != 0 -> P %= S * g -> g %= gcdp P P^`() -> forall u, u %| P -> coprimep u S -> (size u <= 1)%N.
Proof.
  move=> HP EP Eg u Hu Hc. case: (gdcopP S P) => r Hr Hrc Hmax. rewrite (negPf HP) orbF in Hrc.
  have Hr0 : r != 0 by apply/eqP => Z; move: Hr; rewrite Z dvd0p (negPf HP).
  suff Hs : (size r <= 1)%N by apply: leq_trans (dvdp_leq Hr0 (Hmax u Hu Hc)) Hs.
  have /Pdiv.Idomain.dvdpP [[s Q] /= Hs E] := Hr.
  have H1 : r %| P^`(). { have : r %| g by move: Hr; rewrite (eqp_dvdr _ EP) Gauss_dvdpr. rewrite (eqp_dvdr _ Eg) dvdp_gcd => /andP[]. done. }
  have H2 : r %| Q * r^`(). { have : r %| (s *: P)^`() by rewrite derivZ dvdpZr. rewrite E derivM dvdp_addr //. exact: dvdp_mull. }
  have Hrd : r * gcdp r Q %| P. { rewrite -(dvdpZr _ _ Hs) E mulrC. apply: dvdp_mul => //. exact: dvdp_gcdr. }
  have Hcd : coprimep (r * gcdp r Q) S. { rewrite coprimepMl Hrc /=. apply: coprimep_dvdr (dvdp_gcdl r Q) Hrc. }
  have K := Hmax _ Hrd Hcd. have Hrq : coprimep r Q.
  { have Hg0 : gcdp r Q != 0 by rewrite gcdp_eq0 (negPf Hr0). have := dvdp_leq Hr0 K. rewrite size_mul // /coprimep. move: Hg0 Hr0. rewrite -!size_poly_gt0. set x := size r. set y := size _. lia. }
  move: H2. rewrite Gauss_dvdpr // => H3. case E0: (size r) => [|[|k]] //. exfalso. have sr := size_deriv0 (char0 k) E0.
  have := dvdp_leq _ H3. rewrite -size_poly_eq0 sr E0 => /(_ isT). by rewrite ltnn.
Qed.
Lemma psf_ok f : Poly f != 0 -> exists s, [/\ @primitive_squarefree_part O div gcd f = Some s, prim (Poly s), exists q, Poly f = q * Poly s,
  forall u : {poly R}, u ^+ 2 %| Poly s -> (size u <= 1)%N & forall u : {poly R}, u %| Poly f -> coprimep u (Poly s) -> (size u <= 1)%N].
Proof.
  move=> Hf. rewrite /primitive_squarefree_part p_is_zeroE (negPf Hf). have := sgcd_ok D f (@p_derivative O f). rewrite p_derivativeE. case: subresultant_gcd => [g|]; last by case=> Z _; move: Hf; rewrite Z eqxx.
  case=> _ Hg. have Hg0 : Poly g != 0 by rewrite -size_poly_eq0 -(eqp_size Hg) size_poly_eq0 gcdp_eq0 (negPf Hf).
  cbn [obind]. have [cg [g' [Eg1 Eg2 Eg3 Eg4]]] := fpu_ok Hg0. have [cf [f' [Ef1 Ef2 Ef3 Ef4]]] := fpu_ok Hf. rewrite Eg1 Ef1. cbn [obind fst snd].
  have Hg' : Poly g' %= gcdp (Poly f) (Poly f)^`(). { apply: eqp_trans (_ : Poly g %= _); last by rewrite eqp_sym. by rewrite Eg2 eqp_sym eqp_scale. }
  have [Q EQ] : exists Q, Poly f' = Q * Poly g'. { apply: (prim_dvdp GE) => //. by rewrite (eqp_dvdl _ Hg') -(dvdpZr _ _ Ef3) -Ef2 dvdp_gcdl. }
  rewrite (p_div_total D). have := pdivP D f' g'. case: pdiv => [q||]; last first.
  - case=> _ H. by case: (H Q).
  - move=> Z. by move: (prim_neq0 Eg4); rewrite Z eqxx.
  case=> Hg'0 Eq. cbn [obind]. exists q. have Hfe : Poly f %= Poly q * Poly g' by rewrite -Eq Ef2 eqp_scale.
  split=> //.
  - apply: prim_dv Ef4 _. by rewrite Eq mulrC.
  - exists (cf *: Poly g'). by rewrite Ef2 Eq -scalerAl mulrC.
  - move=> u Hu. rewrite leqNgt. apply/negP => Hs. have Hsep : separable_poly (Poly q).
    { have := make_separable Hf. rewrite (@eqp_separable _ _ (Poly q)) //. set GG := gcdp _ _. have HG0 : GG != 0 by rewrite gcdp_eq0 (negPf Hf).
      rewrite -(eqp_mul2r _ _ HG0) Pdiv.Idomain.divpK ?dvdp_gcdl //. apply: eqp_trans (_ : Poly f %= _); first by rewrite eqp_scale // expf_neq0 // lead_coef_eq0.
      apply: eqp_trans Hfe _. by apply: eqp_mull. }
    have := @separable_nosquare _ _ u 2 Hsep isT. rewrite Hu. have -> : size u != 1%N by rewrite gtn_eqF. by move/(_ isT).
  - exact: radical Hf Hfe Hg'.
Qed.
End Char0.
End M.
