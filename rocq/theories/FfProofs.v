(* Polynomials over a finite field: irreducible polynomials are separable, factorisation into irreducibles, p-th powers. *)
From Coq Require Import List Arith NArith Bool.
From mathcomp Require Import all_ssreflect all_fingroup all_algebra all_solvable all_field separable.
From mathcomp Require Import zify.
From Coq Require Import Lia.
From Verif Require Import RingSpec RingModel PermModel MatModel MatSpec PolyModel PolyProofs FacProofs.
Close Scope rs_scope.
Set Implicit Arguments.
Unset Strict Implicit.
Unset Printing Implicit Defensive.
Import GRing.Theory.
Local Open Scope ring_scope.

Lemma coef_comp_poly_Xn (R : comRingType) (f : {poly R}) n i : (0 < n)%N -> (f \Po 'X^n)`_i = if (n %| i)%N then f`_(i %/ n) else 0.
Proof.
  move=> n0. rewrite coef_comp_poly. under eq_bigr do rewrite -exprM coefXn.
  case: ifP => [/dvdnP [k ->]|Hi].
  - rewrite mulnK //. case: (ltnP k (size f)) => Hk.
    + rewrite (bigD1 (Ordinal Hk)) //= mulnC eqxx mulr1 big1 ?addr0 // => j Hj. rewrite eqn_mul2l eqn0Ngt n0 /=. case: eqP => [E|_]; last by rewrite mulr0. by case/eqP: Hj; apply: val_inj.
    + rewrite nth_default // big1 // => j _. rewrite mulnC eqn_mul2l eqn0Ngt n0 /=. case: eqP => [E|_]; last by rewrite mulr0. by move: (ltn_ord j); rewrite -E ltnNge Hk.
  - rewrite big1 // => j _. case: eqP => [E|_]; last by rewrite mulr0. by rewrite E dvdn_mulr in Hi.
Qed.
Section Irr.
Variable F : finFieldType.
Implicit Types (f g : {poly F}) (L : seq ({poly F} * nat)).
Lemma irr_divisor n f : (1 < size f)%N -> (size f <= n)%N -> exists r, [/\ irreducible_poly r, r \is monic & r %| f].
Proof.
  elim: n f => [|n IH] f H1 Hn; first by move: H1; rewrite ltnNge (leq_trans Hn).
  have Hf0 : f != 0 by rewrite -size_poly_gt0 ltnW.
  have [/existsP [v /and3P [Hg Hs He]]|H] := boolP [exists v : 'rV[F]_(size f), [&& rVpoly v %| f, size (rVpoly v) != 1%N & ~~ (rVpoly v %= f)]].
  - set g := rVpoly v in Hg Hs He. have Hg0 : g != 0 by apply/eqP => Z; move: Hg; rewrite Z dvd0p (negPf Hf0).
    have Hlt : (size g < size f)%N. { rewrite ltn_neqAle (dvdp_leq Hf0 Hg) andbT. apply: contra He => /eqP E. by rewrite -(dvdp_size_eqp Hg) E. }
    have [|| r [P1 P2 P3]] := IH g; [by move: Hs; rewrite -size_poly_eq0 in Hg0; case: (size g) Hg0 => [|[|k]]|move: (leq_trans Hlt Hn); by rewrite ltnS|].
    exists r. split=> //. exact: dvdp_trans P3 Hg.
  - exists ((lead_coef f)^-1 *: f). have Hl : (lead_coef f)^-1 != 0 by rewrite invr_eq0 lead_coef_eq0. split.
    + split; first by rewrite size_scale. move=> q Hq. rewrite dvdpZr // => Hd. rewrite (eqp_rtrans (eqp_scale f Hl)). apply: contraT => HN. case/negP: H. apply/existsP. exists (poly_rV q).
      by rewrite poly_rV_K ?Hd ?Hq // dvdp_leq.
    + by rewrite monicE lead_coefZ mulVf // lead_coef_eq0.
    + by rewrite dvdpZl.
Qed.
Lemma irr_coprime r g : irreducible_poly r -> coprimep r g = ~~ (r %| g).
Proof.
  move=> [H1 H2]. apply/idP/idP.
  - move=> H. apply/negP => Hd. have /eqp_size E := dvdp_gcd_idl Hd. by move: H1; rewrite -E (eqP H).
  - move=> H. apply/coprimepP => d Hd1 Hd2. case: (boolP (size d == 1%N)) => Hs; first by rewrite -size_poly_eq1. have He := H2 d Hs Hd1. by move: H; rewrite -(eqp_dvdl _ He) Hd2.
Qed.
Variable p : nat.
Hypothesis Cp : p \in [char F].
Let p_pr : prime p := charf_prime Cp.
Lemma frob_surj (a : F) : exists b, a = b ^+ p.
Proof.
  have I : injective (Frobenius_aut Cp) := @fmorph_inj _ _ [rmorphism of Frobenius_aut Cp].
  have [g _ H] := injF_bij I. exists (g a). by rewrite -(Frobenius_autE Cp) H.
Qed.
(* coefficientwise *)
Lemma pth_power f : exists g, f \Po 'X^p = g ^+ p.
Proof.
  elim/poly_ind: f => [|f c [g IH]]; first by exists 0; rewrite comp_poly0 expr0n; case: p p_pr.
  have [b ->] := frob_surj c. exists (g * 'X + b%:P).
  have Cq : p \in [char {poly F}] by exact: (rmorph_char [rmorphism of (@polyC F)]).
  rewrite comp_polyD comp_polyM comp_polyC comp_polyX IH -[RHS](Frobenius_autE Cq) rmorphD rmorphM /= !Frobenius_autE. by rewrite rmorphX.
Qed.

Lemma deriv0_comp f : f^`() = 0 -> f = (\poly_(i < size f) f`_(i * p)) \Po 'X^p.
Proof.
  move=> D. have p0 := prime_gt0 p_pr. apply/polyP => i. rewrite coef_comp_poly_Xn // coef_poly. case: ifP => [/dvdnP [k ->]|Hi].
  - rewrite mulnK //. case: ltnP => // H. apply: nth_default. apply: leq_trans H _. by rewrite leq_pmulr.
  - case: i Hi => [|i] Hi; first by rewrite dvdn0 in Hi. have := congr1 (fun h : {poly F} => h`_i) D. rewrite coef_deriv coef0 -mulr_natr => /eqP. rewrite mulf_eq0 => /orP[/eqP //|]. by rewrite -(dvdn_charf Cp) Hi.
Qed.
Lemma irr_sep (r : {poly F}) : irreducible_poly r -> coprimep r r^`().
Proof.
  move=> H. rewrite irr_coprime //. have [H1 H2] := H. have [/eqP D|D] := boolP (r^`() == 0).
  - have [g Eg] := pth_power (\poly_(i < size r) r`_(i * p)). rewrite -(deriv0_comp D) in Eg. exfalso.
    have g1 : (1 < size g)%N. { rewrite ltnNge. apply/negP => /size1_polyC E. move: H1. by rewrite Eg E -rmorphX /= size_polyC; case: (_ == 0). }
    have Hg : g %= r. { apply: H2; first by rewrite neq_ltn g1 orbT. rewrite Eg. case: (p) p_pr => // n _. by rewrite exprS dvdp_mulr. }
    have := eqp_size Hg. have := size_exp g p. rewrite -Eg. have := prime_gt1 p_pr. move: H1 g1. set x := size g. set y := size r. nia.
  - apply/negP => Hd. have := dvdp_leq D Hd. by rewrite leqNgt lt_size_deriv // irredp_neq0.
Qed.
Definition irrs (L : seq ({poly F} * nat)) := forall x, x \in L -> irreducible_poly x.1 /\ x.1 \is monic.
Lemma mem_dvdF L x : good L -> x \in L -> x.1 ^+ x.2 %| Fp L.
Proof. elim: L => [|y L IH] //= [_ _ _ _ HL]. rewrite inE => /orP[/eqP ->|/(IH HL) H]; [exact: dvdp_mulr|exact: dvdp_mull]. Qed.
Lemma mult_dec n f (r : {poly F}) : f != 0 -> (size f <= n)%N -> (1 < size r)%N -> exists e g, f = g * r ^+ e /\ ~~ (r %| g).
Proof.
  move=> Hf Hn Hr. elim: n f Hf Hn => [|n IH] f Hf Hn; first by move: Hf; rewrite -size_poly_gt0; move: Hn; rewrite leqn0 => /eqP ->.
  have [Hd|Hd] := boolP (r %| f); last by exists 0%N, f; rewrite expr0 mulr1.
  have E := divpK Hd. set g := f %/ r in E. have Hg : g != 0 by apply/eqP => Z; move: Hf; rewrite -E Z mul0r eqxx.
  have Hr0 : r != 0 by rewrite -size_poly_gt0 ltnW. have Sz := size_mul Hg Hr0. rewrite E in Sz.
  have [|e [h [E1 E2]]] := IH g Hg; first by move: Sz Hn Hr; set x := size f; set y := size g; set z := size r; lia.
  exists e.+1, h. split=> //. by rewrite -E E1 exprSr mulrA.
Qed.
Lemma irr_decomp n f : f != 0 -> (size f <= n)%N -> exists L, [/\ good L, irrs L & f %= Fp L].
Proof.
  elim: n f => [|n IH] f Hf Hn; first by move: Hf; rewrite -size_poly_gt0 leqn0 in Hn *; rewrite (eqP Hn).
  case: (leqP (size f) 1) => Hs.
  { exists [::]. split=> //=. rewrite -[_ %= _]/(f %= 1) -size_poly_eq1 eqn_leq Hs size_poly_gt0. done. }
  have [r [Ir Mr Hr]] := irr_divisor Hs (leqnn _).
  have [e [g [Eg Hg]]] := mult_dec Hf (leqnn _) Ir.1.
  have He : (0 < e)%N. { rewrite lt0n. apply/eqP => Z. move: Hg. by rewrite -[g]mulr1 -(expr0 r) -Z -Eg Hr. }
  have Hg0 : g != 0 by apply/eqP => Z; move: Hf; rewrite Eg Z mul0r eqxx.
  have [H1 H2] := Ir. have Sz := size_mul Hg0 (expf_neq0 e (irredp_neq0 Ir)). rewrite -Eg in Sz.
  have Se : (1 < size (r ^+ e))%N. { have := size_exp r e. move: He H1. set x := size r. set y := size (r ^+ e). nia. }
  have [|L [HL IL EL]] := IH g Hg0; first by move: Sz Hn Se; set x := size f; set y := size g; set z := size (r ^+ e); lia.
  exists ((r, e) :: L). split.
  - split=> //=; first exact: irr_sep. have : coprimep r (Fp L) by rewrite -(eqp_coprimepr _ EL) irr_coprime. apply: coprimep_dvdl. exact: Pi_dvd_Fp.
  - move=> x. rewrite inE => /orP[/eqP ->|/IL] //.
  - rewrite /= Eg mulrC. exact: eqp_mull.
Qed.
Lemma Fp_monic L : irrs L -> Fp L \is monic.
Proof. elim: L => [|x L IH] H /=; first exact: monic1. rewrite monicMl; first by rewrite IH // => y Hy; apply: H; rewrite inE Hy orbT. apply: monic_exp. by have [] := H _ (mem_head _ _). Qed.
Lemma Pi_monic L : irrs L -> Pi L \is monic.
Proof. elim: L => [|x L IH] H /=; first exact: monic1. rewrite monicMl; first by rewrite IH // => y Hy; apply: H; rewrite inE Hy orbT. by have [] := H _ (mem_head _ _). Qed.
Lemma irrs_filter P L : irrs L -> irrs (filter P L).
Proof. move=> H x. rewrite mem_filter => /andP [_]. exact: H. Qed.
Lemma monic_eqp f g : f \is monic -> g \is monic -> f %= g -> f = g.
Proof. move=> M1 M2 /eqpfP. by rewrite (monicP M1) (monicP M2) invr1 mul1r scale1r. Qed.
Lemma monic_decomp f : f \is monic -> exists L, [/\ good L, irrs L & f = Fp L].
Proof. move=> M. have [L [H1 H2 H3]] := irr_decomp (monic_neq0 M) (leqnn _). exists L. split=> //. apply: monic_eqp => //. exact: Fp_monic. Qed.
(* the prime field *)
Lemma frob_comp f : (forall a : F, a ^+ p = a) -> f ^+ p = f \Po 'X^p.
Proof.
  move=> H. have Cq : p \in [char {poly F}] by exact: (rmorph_char [rmorphism of (@polyC F)]).
  elim/poly_ind: f => [|f c IH]; first by rewrite comp_poly0 expr0n; case: p p_pr.
  rewrite comp_polyD comp_polyM comp_polyC comp_polyX -IH -[LHS](Frobenius_autE Cq) rmorphD rmorphM /= !Frobenius_autE. by rewrite -rmorphX H.
Qed.
End Irr.
