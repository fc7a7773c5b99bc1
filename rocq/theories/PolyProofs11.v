(* Contents, primitive polynomials and Gauss' lemma over a GCD domain. *)
From Coq Require Import List Arith NArith Bool.
From mathcomp Require Import all_ssreflect all_algebra.
From mathcomp Require Import zify.
From Coq Require Import Lia.
From Verif Require Import RingSpec RingModel RingProofs PermModel MatModel MatSpec MatProofs MatProofs2 PolyModel PolySpec PolyProofs PolyProofs2 PolyProofs3 PolyProofs8 PolyProofs9.
Close Scope rs_scope.
Set Implicit Arguments.
Unset Strict Implicit.
Unset Printing Implicit Defensive.
Import GRing.Theory.
Local Open Scope ring_scope.

Section G.
Variable R : idomainType.
Notation O := (mc_ops R).
Implicit Types (A B P Q : {poly R}) (x y c d : R).
Definition dv x y := exists q, y = q * x.
Lemma rdvdE x y : @rdvd O x y <-> dv x y.
Proof. split=> -[q]; [move/eqP => /= ->; exists q; by rewrite mulrC|move=> ->; exists q; apply/eqP; by rewrite /= mulrC]. Qed.
Lemma dv_refl x : dv x x. Proof. by exists 1; rewrite mul1r. Qed.
Lemma dv_trans x y z : dv x y -> dv y z -> dv x z.
Proof. move=> [a ->] [b ->]. by exists (b * a); rewrite mulrA. Qed.
Lemma dv0 x : dv x 0. Proof. by exists 0; rewrite mul0r. Qed.
Lemma dvD x y z : dv x y -> dv x z -> dv x (y + z). Proof. move=> [a ->] [b ->]. exists (a + b). by rewrite mulrDl. Qed.
Lemma dvN x y : dv x y -> dv x (- y). Proof. move=> [a ->]. exists (- a). by rewrite mulNr. Qed.
Lemma dvM x y z : dv x y -> dv x (z * y). Proof. move=> [a ->]. exists (z * a). by rewrite mulrA. Qed.
Lemma dvMr x y z : dv x y -> dv x (y * z). Proof. rewrite mulrC. exact: dvM. Qed.
Lemma dv_cancel c x y : c != 0 -> dv (c * x) (c * y) -> dv x y.
Proof. move=> Hc [q E]. exists q. apply: (mulfI Hc). by rewrite E mulrCA. Qed.
(* d divides every coefficient *)
Definition dvp d P := forall i, dv d P`_i.
(* only units divide every coefficient *)
Definition prim P := forall d, dvp d P -> dv d 1.
Definition gcd_ex := forall l : seq R, exists g, (forall x, x \in l -> dv g x) /\ forall d, (forall x, x \in l -> dv d x) -> dv d g.
Hypothesis GE : gcd_ex.
Lemma content_ex P : exists g, dvp g P /\ forall d, dvp d P -> dv d g.
Proof.
  have [g [H1 H2]] := GE P. exists g. split.
  - move=> i. case: (ltnP i (size P)) => Hi; first by apply: H1; rewrite mem_nth. rewrite nth_default //. exact: dv0.
  - move=> d Hd. apply: H2 => x /(nthP 0) [i Hi <-]. exact: Hd.
Qed.
Lemma dvp_fact g P : dvp g P -> exists Q, P = g *: Q.
Proof.
  move=> H. suff K : forall n, exists Q, forall i, (i < n)%N -> P`_i = g * Q`_i.
  { have [Q HQ] := K (size P). exists (\poly_(i < size P) Q`_i). apply/polyP => i. rewrite coefZ coef_poly. case: ltnP => Hi; first exact: HQ. by rewrite mulr0 nth_default. }
  elim=> [|n [Q HQ]]; first by exists 0. have [q Eq] := H n. exists (\poly_(i < n.+1) if i == n then q else Q`_i) => i Hi. rewrite coef_poly Hi. case: eqP => [->|Hne]; first by rewrite mulrC.
  apply: HQ. lia.
Qed.
Lemma dvp_scale g Q : dvp g (g *: Q). Proof. move=> i. rewrite coefZ. apply: dvMr. exact: dv_refl. Qed.
Lemma prim_fact P : P != 0 -> exists g Q, [/\ P = g *: Q, g != 0 & prim Q].
Proof.
  move=> HP. have [g [H1 H2]] := content_ex P. have [Q E] := dvp_fact H1. exists g, Q.
  have Hg : g != 0 by apply/eqP => Z; move: HP; rewrite E Z scale0r eqxx.
  split=> // d Hd. have : dv (g * d) g.
  { apply: H2 => i. rewrite E coefZ. have [q ->] := Hd i. exists q. by rewrite mulrCA. }
  rewrite -[X in dv _ X]mulr1. exact: dv_cancel.
Qed.
Lemma prim_neq0 P : prim P -> P != 0.
Proof. move=> H. apply/eqP => E. have [|q] := H 0; first by rewrite E => i; rewrite coef0; exact: dv0. rewrite mulr0 => /eqP. by rewrite oner_eq0. Qed.
Lemma dvp_prim d c P : prim P -> dvp d (c *: P) -> dv d c.
Proof.
  move=> HP Hd. case: (@eqP _ c 0) => [->|/eqP Hc]; first exact: dv0. have [g [H1 H2]] := content_ex (c *: P).
  have [h Eh] : dv c g by apply: H2; exact: dvp_scale. have Hh : dv h 1.
  { apply: HP => i. apply: (dv_cancel Hc). have := H1 i. by rewrite Eh coefZ mulrC. }
  apply: dv_trans (H2 _ Hd) _. rewrite Eh. have [u Eu] := Hh. exists u. by rewrite mulrA -Eu mul1r.
Qed.
Lemma dv_coprime d x y : (forall e, dv e d -> dv e x -> dv e 1) -> dv d (x * y) -> dv d y.
Proof.
  move=> Hc H. have [g [H1 H2]] := GE [:: d; x]. have Hg : dv g 1 by apply: Hc; apply: H1; rewrite !inE eqxx ?orbT.
  (* prim of d + x X *)
  have HP : prim (Poly [:: d; x]).
  { move=> e He. apply: Hc; [have := He 0%N|have := He 1%N]; by rewrite coef_Poly. }
  apply: (dvp_prim HP) => i. rewrite coefZ coef_Poly. case: i => [|[|i]] /=.
  - apply: dvM. exact: dv_refl.
  - by rewrite mulrC.
  - rewrite nth_nil mulr0. exact: dv0.
Qed.
Lemma dvp_sub d A B : dvp d A -> dvp d B -> dvp d (A - B). Proof. move=> H1 H2 i. rewrite coefB. apply: dvD => //. exact: dvN. Qed.
Lemma dvp_mul d A B : dvp d A -> dvp d (A * B).
Proof. move=> /dvp_fact [Q ->] i. rewrite -scalerAl. exact: dvp_scale. Qed.
Lemma dvp_lead d A : dvp d (A - lead_coef A *: 'X^(size A).-1) -> dv d (lead_coef A) -> dvp d A.
Proof.
  move=> H1 H2. rewrite -[A](subrK (lead_coef A *: 'X^(size A).-1)) => i. rewrite coefD. apply: dvD; first exact: H1. rewrite coefZ. exact: dvMr.
Qed.
Lemma size_tail A : A != 0 -> (size (A - lead_coef A *: 'X^(size A).-1)%R < size A)%N.
Proof.
  rewrite -size_poly_gt0. case E: (size A) => [|n] // _. rewrite ltnS. apply/leq_sizeP => i Hi. rewrite coefB coefZ coefXn /=. case: eqP => [->|Hne].
  - by rewrite mulr1 lead_coefE E subrr.
  - rewrite mulr0 subr0. apply: nth_default. rewrite E. lia.
Qed.
Lemma gauss_aux n : forall A B, (size A + size B <= n)%N -> prim A -> prim B -> prim (A * B).
Proof.
  elim: n => [|n IH] A B Hn HA HB d Hd.
  { have := prim_neq0 HA. rewrite -size_poly_gt0. lia. }
  have half A' B' : (size A' + size B' <= n.+1)%N -> prim A' -> prim B' -> dvp d (A' * B') -> forall e, dv e d -> dv e (lead_coef A') -> dv e 1.
  { move=> Hn1 HA1 HB1 Hd1 e He1 He2. apply: (HA1). apply: (dvp_lead _ He2). set A'' := A' - _.
    case: (@eqP _ A'' 0) => [->|/eqP Hz]; first by move=> i; rewrite coef0; exact: dv0.
    have [g [Q [E Hg HQ]]] := prim_fact Hz. have HQB : prim (Q * B').
    { apply: IH => //. have sQ : size Q = size A'' by rewrite E size_scale. have := size_tail (prim_neq0 HA1). rewrite -/A'' -sQ. set z := size Q. set w := size B'. set t := size A'. move: Hn1. rewrite -/w -/t. lia. }
    have : dvp e (g *: (Q * B')).
    { rewrite scalerAl -E /A'' mulrBl. apply: dvp_sub; first by move=> i; apply: dv_trans He1 (Hd1 i). apply: dvp_mul => i. rewrite coefZ. exact: dvMr. }
    move/(dvp_prim HQB) => Hge. rewrite E => i. rewrite coefZ. exact: dvMr. }
  have K : dv d (lead_coef B). { apply: (@dv_coprime d (lead_coef A)); first exact: (half A B). rewrite -lead_coefM. exact: Hd. }
  apply: (half B A) K => //; first by rewrite addnC. by rewrite mulrC. exact: dv_refl.
Qed.
Lemma gauss A B : prim A -> prim B -> prim (A * B).
Proof. exact: (gauss_aux (leqnn _)). Qed.
(* division up to scalars by a primitive polynomial is division *)
Lemma prim_dvdp A B : prim A -> A %| B -> exists Q, B = Q * A.
Proof.
  move=> HA /Pdiv.Idomain.dvdpP [[s Q] /= Hs E]. case: (@eqP _ Q 0) => [Q0|/eqP HQ].
  - exists 0. rewrite mul0r. move/eqP: E. by rewrite Q0 mul0r scale_poly_eq0 (negPf Hs) => /eqP.
  - have [g [Q' [EQ Hg HQ']]] := prim_fact HQ. have [t Et] : dv s g.
    { apply: (dvp_prim (gauss HQ' HA)). rewrite scalerAl -EQ -E. exact: dvp_scale. }
    exists (t *: Q'). apply: (@mulfI _ s%:P); first by rewrite polyC_eq0. by rewrite !mul_polyC E EQ Et -!scalerAl scalerA mulrC.
Qed.
Lemma prim_dv A B C : prim A -> A = C * B -> prim B.
Proof. move=> HA E d Hd. apply: HA. rewrite E mulrC. exact: dvp_mul. Qed.
Lemma prim_unit_scale u P : dv u 1 -> prim P -> prim (u *: P).
Proof.
  move=> [v E] HP d Hd. apply: HP => i. have := Hd i. rewrite coefZ => -[q Eq]. exists (v * q). by rewrite -mulrA -Eq mulrA -E mul1r.
Qed.
End G.
