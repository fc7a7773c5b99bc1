(* C26: subresultant sequences, resultants, discriminants and the square-free test over an integral domain. *)
From Coq Require Import List Arith NArith ZArith Bool.
From mathcomp Require Import all_ssreflect all_algebra.
From Coq Require Import Lia.
From Verif Require Import RingSpec RingModel RingProofs RingProps PermModel MatModel MatSpec ZRing MatInst PolyModel PolySpec PolyProofs PolyProofs2 PolyProofs3 PolyProofs6 PolyProofs7 PolyProofs8 PolyProofs9 PolyProofs10.
Close Scope rs_scope.
Set Implicit Arguments.
Unset Strict Implicit.
Unset Printing Implicit Defensive.
Import GRing.Theory.
Local Open Scope ring_scope.

(* sanity of the specification: Res(x - s, x - t) = s - t *)
Lemma Res_linear (R : idomainType) (s t : R) : Res ('X - s%:P) ('X - t%:P) = s - t.
Proof.
  rewrite /Res /pdeg !size_XsubC /= (expand_det_row _ ord0) !big_ord_recl big_ord0 /cofactor !det_mx11 !mxE /= !coefB !coefX !coefC /=.
  by rewrite !sub0r !subr0 expr0 expr1 addr0 !mul1r mulr1 mulrN1 opprK addrC.
Qed.

Section C26.
Variable R : idomainType.
Notation O := (mc_ops R).
Variable div : div_op O.
Hypothesis D : idom_laws O div.
Implicit Types (a b : seq R).
(* resultant never panics; it is the Sylvester determinant of the arguments ordered by degree, larger first *)
Theorem C26_resultant a b : @resultant O div a b = Some (
  if (Poly a == 0) || (Poly b == 0) then 0 else if (pdeg (Poly a) < pdeg (Poly b))%N then Res (Poly b) (Poly a) else Res (Poly a) (Poly b)).
Proof.
  rewrite (resultant_ok D). congr Some. case: ifP => // /negbT. rewrite negb_or -!size_poly_gt0 /pdeg. case: (size (Poly a)) => // m. by case: (size (Poly b)).
Qed.
(* so it is Res(a, b), the Sylvester determinant of (a, b), unless deg a < deg b with both degrees odd *)
Theorem C26_sylvester_partial a b : Poly a != 0 -> Poly b != 0 -> (pdeg (Poly b) <= pdeg (Poly a))%N || ~~ odd (pdeg (Poly a) * pdeg (Poly b)) ->
  @resultant O div a b = Some (Res (Poly a) (Poly b)).
Proof.
  move=> Ha Hb H. rewrite C26_resultant (negPf Ha) (negPf Hb) /=. case: ltnP => // H'. congr Some. rewrite (Res_swap Hb Ha) -signr_odd. move: H. rewrite leqNgt H' /= mulnC => /negPf ->. by rewrite expr0 mul1r.
Qed.
Theorem C26_sign_wrong a b : Poly a != 0 -> Poly b != 0 -> (pdeg (Poly a) < pdeg (Poly b))%N -> odd (pdeg (Poly a) * pdeg (Poly b)) ->
  @resultant O div a b = Some (- Res (Poly a) (Poly b)).
Proof.
  move=> Ha Hb H1 H2. rewrite C26_resultant (negPf Ha) (negPf Hb) /= H1. congr Some. by rewrite (Res_swap Hb Ha) -signr_odd mulnC H2 expr1 mulN1r.
Qed.
(* swapping the arguments never changes the result for different degrees; the Sylvester determinant changes by (-1)^(deg a deg b) *)
Theorem C26_res_swap a b : Poly a != 0 -> Poly b != 0 -> Res (Poly a) (Poly b) = (-1) ^+ (pdeg (Poly a) * pdeg (Poly b)) * Res (Poly b) (Poly a).
Proof. exact: Res_swap. Qed.
(* the resultant is zero exactly if an argument is 0 or the arguments have a common divisor of positive degree *)
Theorem C26_zero a b : @resultant O div a b = Some 0 <-> (Poly a = 0 \/ Poly b = 0 \/ exists g : {poly R}, (0 < pdeg g)%N /\ g %| Poly a /\ g %| Poly b).
Proof.
  case: (boolP (Poly a == 0)) => [/eqP Ha|Ha]; first by split; [left|rewrite C26_resultant Ha eqxx]. case: (boolP (Poly b == 0)) => [/eqP Hb|Hb]; first by split; [right; left|rewrite C26_resultant Hb eqxx orbT].
  have K : (exists g : {poly R}, (0 < pdeg g)%N /\ g %| Poly a /\ g %| Poly b) <-> (1 < size (gcdp (Poly a) (Poly b)))%N.
  { split.
    - move=> [g [H1 [H2 H3]]]. have Hd : g %| gcdp (Poly a) (Poly b) by rewrite dvdp_gcd H2 H3. have := dvdp_leq _ Hd. rewrite gcdp_eq0 (negPf Ha) /= => /(_ isT). move: H1. rewrite /pdeg. case: (size g) => [|[|k]] // _. exact: leq_trans.
    - move=> H. exists (gcdp (Poly a) (Poly b)). rewrite dvdp_gcdl dvdp_gcdr /pdeg. split=> //. by case: (size _) H => [|[|k]]. }
  rewrite C26_resultant (negPf Ha) (negPf Hb) /=. split.
  - case=> E. right; right. apply/K. case: ifP E => _ /eqP; rewrite (Res_eq0 D) //. by rewrite (eqp_size (gcdpC _ _)).
  - move=> [/eqP|[/eqP|/K H]]; try by rewrite ?(negPf Ha) ?(negPf Hb). congr Some. apply/eqP. case: ifP => _; rewrite (Res_eq0 D) //. by rewrite (eqp_size (gcdpC _ _)).
Qed.
(* the remainder sequence: for nonzero a, b with deg b <= deg a it returns a, b and then subresultants of a and b, together with the
   principal subresultant coefficients.  sres m n j A B is the determinant polynomial of x^(n-j-1) A, ..., A, x^(m-j-1) B, ..., B. *)
Theorem C26_sequence a b : Poly a != 0 -> Poly b != 0 -> (pdeg (Poly b) <= pdeg (Poly a))%N ->
  let m := pdeg (Poly a) in let n := pdeg (Poly b) in
  exists prs ss, @pseudo_remainder_subresultant_sequence O div a b = Some ([:: a, b & prs], [:: 1, lead_coef (Poly b) ^+ (m - n) & ss]) /\
  size prs = size ss /\
  (forall i, (i < size prs)%N -> let p := Poly (nth [::] prs i) in
     (exists2 j, (j < n)%N & p = sres m n j (Poly a) (Poly b)) /\
     nth 0 ss i = (sres m n (pdeg p) (Poly a) (Poly b))`_(pdeg p) /\ nth 0 ss i != 0) /\
  gcdp (Poly a) (Poly b) %= Poly (last b prs).
Proof.
  move=> Ha Hb. have [m sa] := deg_of Ha. have [n sb] := deg_of Hb. rewrite /pdeg sa sb /= => Hmn. have [prs [ss [E1 [[E2 E3 E4 E5] E6]]]] := prs_ordered D sa sb Hmn.
  exists prs, ss. split=> //. split=> //. split=> //. move=> i Hi. by case: (E3 i Hi).
Qed.
(* subresultant_gcd panics exactly on (0, 0); otherwise it is a gcd up to constants: up to nonzero scalar factors it divides both, and every
   common divisor (up to scalars) divides it *)
Theorem C26_subresultant_gcd a b : match @subresultant_gcd O div a b with
  | Some g => [/\ Poly g != 0, (Poly g %| Poly a) && (Poly g %| Poly b) & forall d : {poly R}, d %| Poly a -> d %| Poly b -> d %| Poly g]
  | None => Poly a = 0 /\ Poly b = 0 end.
Proof.
  have := sgcd_ok D a b. case: subresultant_gcd => [g|] // [H E]. split.
  - rewrite -size_poly_eq0 -(eqp_size E) size_poly_eq0 gcdp_eq0. move: H. by case: eqP.
  - by rewrite -!(eqp_dvdl _ E) dvdp_gcdl dvdp_gcdr.
  - move=> d H1 H2. by rewrite -(eqp_dvdr _ E) dvdp_gcd H1 H2.
Qed.
(* is_squarefree panics on 0; it decides coprimality with the derivative *)
Theorem C26_is_squarefree a : @is_squarefree O div a = if Poly a == 0 then None else Some (coprimep (Poly a) (Poly a)^`()).
Proof. exact: sqfree_ok. Qed.
(* which in characteristic 0 is square-freeness (%| is divisibility up to nonzero scalars, i.e. over the field of fractions) *)
Theorem C26_is_squarefree_char0 a : (forall n, (n.+1)%:R != 0 :> R) -> Poly a != 0 ->
  exists r, @is_squarefree O div a = Some r /\ (r <-> forall u : {poly R}, u ^+ 2 %| Poly a -> (size u <= 1)%N).
Proof. move=> H Ha. rewrite C26_is_squarefree (negPf Ha). exists (coprimep (Poly a) (Poly a)^`()). split=> //. exact: sqfree_char0. Qed.
(* discriminant: an error for constants; else, if deg p is invertible up to scalars (n != 0 in R), the d with
   lc(p) * d = (-1)^(n(n-1)/2) Res(p, p') *)
Theorem C26_discriminant a : (forall n, (n.+1)%:R != 0 :> R) ->
  exists o, @discriminant O div a = Some o /\
  match o with
  | None => (size (Poly a) <= 1)%N
  | Some d => let n := pdeg (Poly a) in (0 < n)%N /\ lead_coef (Poly a) * d = (-1) ^+ (n * (n - 1))./2 * Res (Poly a) (Poly a)^`()
  end.
Proof.
  move=> H. case: (leqP (size (Poly a)) 1) => Hs; first by exists None; rewrite (disc_ok) Hs.
  have [n sa] : exists n, size (Poly a) = n.+2 by exists (size (Poly a)).-2; move: Hs; case: (size _) => [|[|k]].
  have [d [E1 E2]] := disc_val D sa (H n). exists (Some d). split=> //. by rewrite /pdeg sa /= subn1.
Qed.
End C26.
Print Assumptions C26_resultant. Print Assumptions C26_sylvester_partial. Print Assumptions C26_sign_wrong. Print Assumptions C26_res_swap. Print Assumptions C26_zero. Print Assumptions C26_sequence.
Print Assumptions C26_subresultant_gcd. Print Assumptions C26_is_squarefree. Print Assumptions C26_is_squarefree_char0. Print Assumptions C26_discriminant.

(* over the integers: resultant(x, x^3 + 1) = resultant(x^3 + 1, x) = -1, while Res(x, x^3 + 1) = 1 *)
Notation ZO := (mc_ops Z_comRingType).
Lemma Z_char0 n : (n.+1)%:R != 0 :> Z_comRingType.
Proof.
  have -> : (n.+1)%:R = Z.of_nat n.+1 :> Z_comRingType; last by [].
  elim: n => [|n IH] //. rewrite -[n.+2]addn1 natrD IH. apply: esym. exact: (Nat2Z.inj_add n.+1 1).
Qed.
Theorem C26_sign_refuted : exists a b : seq Z, @resultant ZO Zdiv a b = Some (Zneg 1) /\ Res (R := Z_idomainType) (Poly (a : seq Z_idomainType)) (Poly (b : seq Z_idomainType)) = Zpos 1 /\
  @resultant ZO Zdiv b a = Some (Zneg 1) /\ odd (pdeg (R := Z_idomainType) (Poly (a : seq Z_idomainType)) * pdeg (R := Z_idomainType) (Poly (b : seq Z_idomainType))).
Proof.
  exists [:: Z0; Zpos 1], [:: Zpos 1; Z0; Z0; Zpos 1].
  set a : seq Z_idomainType := [:: Z0; Zpos 1]. set b : seq Z_idomainType := [:: Zpos 1; Z0; Z0; Zpos 1].
  have Ea : Poly a = a :> seq Z by apply: (PolyK (c := Z0 : Z_idomainType)). have Eb : Poly b = b :> seq Z by apply: (PolyK (c := Z0 : Z_idomainType)).
  have Ha : Poly a != 0 by rewrite -size_poly_eq0 Ea. have Hb : Poly b != 0 by rewrite -size_poly_eq0 Eb.
  have E1 : @resultant ZO Zdiv a b = Some (Zneg 1) by vm_compute.
  have Ho : odd (pdeg (Poly a) * pdeg (Poly b)) by rewrite /pdeg Ea Eb.
  have Hlt : (pdeg (Poly a) < pdeg (Poly b))%N by rewrite /pdeg Ea Eb.
  have E2 := @C26_sign_wrong Z_idomainType Zdiv Zidom a b Ha Hb Hlt Ho.
  have E3 : Some (Zneg 1) = Some (- Res (Poly a) (Poly b)) := etrans (esym E1) E2.
  have {E2}E2 : Zneg 1 = - Res (Poly a) (Poly b) by case: E3.
  split; first exact: E1. split; last by split; [vm_compute; reflexivity|exact: Ho].
  have E4 : - - Res (Poly a) (Poly b) = Zpos 1 by rewrite -E2. rewrite opprK in E4. exact: E4.
Qed.
Print Assumptions C26_sign_refuted.
Definition C26_int_resultant := @C26_resultant Z_idomainType Zdiv Zidom.
Definition C26_int_squarefree a := @C26_is_squarefree_char0 Z_idomainType Zdiv Zidom a Z_char0.
Definition C26_int_discriminant a := @C26_discriminant Z_idomainType Zdiv Zidom a Z_char0.
(* b^2 - 4ac, and a resultant with a jump of two degrees in the sequence *)
Example C26_ex : @discriminant ZO Zdiv [:: Zpos 3; Zpos 5; Zpos 2] = Some (Some (Zpos 1)) /\
  @resultant ZO Zdiv [:: Zpos 1; Zpos 2; Z0; Z0; Zpos 3] [:: Zpos 1; Z0; Zpos 2; Zpos 1] = Some (Zpos 262) /\
  @is_squarefree ZO Zdiv [:: Zpos 1; Z0; Zneg 2; Z0; Zpos 1] = Some false /\ @is_squarefree ZO Zdiv [:: Zpos 1; Z0; Zpos 1] = Some true /\ @is_squarefree ZO Zdiv [:: Z0] = None.
Proof. vm_compute. by []. Qed.
