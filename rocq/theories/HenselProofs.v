(* Polynomials over quotient rings: the operations of Polynomial<QuotientStructure<..>> are those of R[x] modulo m *)
From Coq Require Import List Arith NArith Bool.
From mathcomp Require Import all_ssreflect all_algebra.
From mathcomp Require Import zify.
From Coq Require Import Lia Ring.
From Verif Require Import RingSpec RingModel RingProofs RingProofs2 PermModel MatModel MatSpec PolyModel PolyProofs PolyProofs2 PolyProofs3 PolyHom McRing QuotRing HenselSpec HenselModel.
Close Scope rs_scope.
Set Implicit Arguments.
Unset Strict Implicit.
Unset Printing Implicit Defensive.
Import GRing.Theory.
Local Open Scope ring_scope.

Section Id.
Variable A : comRingType.
Add Ring A_ring : (mc_rt A).
Implicit Types x y z : A.
Lemma cm_id (m s q p t : A) : ((p + m * s) * (q + m * t) = p * q + m * (s * q + p * t + m * s * t))%mcr. Proof. ring. Qed.
End Id.
Section Cong.
Variable R : comRingType.
Implicit Types (m : R) (P Q S : {poly R}).
Lemma congE m P Q : cong m P Q <-> exists S, P = Q + m%:P * S.
Proof.
  split=> [H|[S ->] k]; last by exists S`_k; rewrite coefD coefCM addrC addKr.
  have [n Hn] : exists n, forall k, (n <= k)%N -> P`_k - Q`_k = 0.
  { exists (maxn (size P) (size Q)) => k. rewrite geq_max => /andP[H1 H2]. by rewrite !nth_default // subrr. }
  have [l Hl] : exists l : seq R, size l = n /\ forall k, (k < n)%N -> P`_k - Q`_k = m * l`_k.
  { elim: {Hn} n => [|n [l [Sl Hl]]]; first by exists [::].
    have [c Hc] := H n. exists (rcons l c). rewrite size_rcons Sl. split=> // k. rewrite nth_rcons Sl ltnS leq_eqVlt.
    case/orP=> [/eqP ->|Hk]; first by rewrite ltnn eqxx. by rewrite Hk Hl. }
  exists (Poly l). apply/polyP => k. rewrite coefD coefCM coef_Poly. case: (ltnP k n) => Hk.
  - by rewrite -Hl.2 // addrC subrK.
  - rewrite [l`_k]nth_default ?Hl.1 // mulr0 addr0. apply/eqP. by rewrite -subr_eq0 Hn.
Qed.
Lemma cong_refl m P : cong m P P. Proof. move=> k. exists 0. by rewrite subrr mulr0. Qed.
Lemma cong_sym m P Q : cong m P Q -> cong m Q P.
Proof. move=> H k. have [c E] := H k. exists (- c). by rewrite mulrN -E opprB. Qed.
Lemma cong_trans m Q P S : cong m P Q -> cong m Q S -> cong m P S.
Proof. move=> H1 H2 k. have [c E] := H1 k. have [d E'] := H2 k. exists (c + d). by rewrite mulrDr -E -E' addrA subrK. Qed.
Lemma cong_add m P P' Q Q' : cong m P P' -> cong m Q Q' -> cong m (P + Q) (P' + Q').
Proof. move=> /congE[S ->] /congE[S' ->]. apply/congE. exists (S + S'). by rewrite mulrDr addrACA. Qed.
Lemma cong_opp m P P' : cong m P P' -> cong m (- P) (- P').
Proof. move=> /congE[S ->]. apply/congE. exists (- S). by rewrite mulrN opprD. Qed.
Lemma cong_sub m P P' Q Q' : cong m P P' -> cong m Q Q' -> cong m (P - Q) (P' - Q').
Proof. move=> H1 H2. apply: cong_add => //. exact: cong_opp. Qed.
Lemma cong_mul m P P' Q Q' : cong m P P' -> cong m Q Q' -> cong m (P * Q) (P' * Q').
Proof.
  move=> /congE[S ->] /congE[S' ->]. apply/congE. exists (S * Q' + P' * S' + m%:P * S * S'). exact: cm_id.
Qed.
End Cong.

Section Map.
Variables (R K : comRingType) (f : {rmorphism R -> K}).
Lemma Poly_map (a : seq R) : Poly (List.map f a) = map_poly f (Poly a).
Proof.
  rewrite mapE. apply/polyP => i. rewrite coef_map !coef_Poly. case: (ltnP i (size a)) => Hi.
  - by rewrite (nth_map 0).
  - by rewrite [RHS]/= [a`_i]nth_default // rmorph0 nth_default ?size_map.
Qed.
End Map.

Section Q.
Variable R : idomainType.
Notation O := (mc_ops R).
Variables (div : div_op O) (ffa : ffa_op O) (norm : R -> option N) (quorem : R -> R -> option (R * R)).
Hypothesis D : idom_laws O div.
Hypothesis F : ffa_laws O ffa.
Hypothesis E : euclid_laws O norm quorem.
Hypothesis M : norm_mono O norm.
Lemma rdvdE (a b : R) : @rdvd O a b <-> exists c, b = a * c.
Proof. split=> -[c H]; exists c; [by move/eqP: H|by apply/eqP]. Qed.
Section Mod.
Variable m : R.
Hypothesis m0 : m != 0.
Notation Q := (@quotient_ops O quorem m).
Lemma Hm : @req O m r0 = false. Proof. exact: (negbTE m0). Qed.
Lemma q_zero x : (q_rem (R := O) quorem m x == 0) <-> exists c, x = m * c.
Proof. rewrite -rdvdE. exact: (@q_rem_zero O div norm quorem D E m Hm M x). Qed.
Lemma q_remE x : exists c, q_rem (R := O) quorem m x = x + m * c.
Proof. have /q_eq H := @q_rem_eq O div norm quorem D E m Hm M x. have {H} /rdvdE [c Hc] := H _ _ D E Hm M. exists c. rewrite -Hc /=. by rewrite addrC subrK. Qed.
Lemma q_rem0 : q_rem (R := O) quorem m 0 = 0.
Proof. apply/eqP/q_zero. exists 0. by rewrite mulr0. Qed.
Lemma Qreq x y : @req Q x y <-> exists c, x - y = m * c.
Proof. exact: q_zero. Qed.
Lemma premE (f : seq R) : cong m (Poly (rem_map (R := O) quorem m f)) (Poly f).
Proof.
  move=> k. rewrite /rem_map mapE !coef_Poly. case: (ltnP k (size f)) => Hk.
  - rewrite (nth_map 0) //. have [c ->] := q_remE f`_k. exists c. by rewrite addrC addKr.
  - rewrite !nth_default ?size_map //. exists 0. by rewrite subrr mulr0.
Qed.
Lemma prem_coef (f : seq R) k : (Poly (rem_map (R := O) quorem m f))`_k = q_rem (R := O) quorem m (Poly f)`_k.
Proof.
  rewrite /rem_map mapE !coef_Poly. case: (ltnP k (size f)) => Hk; first by rewrite (nth_map 0).
  by rewrite !nth_default ?size_map // q_rem0.
Qed.
Hypothesis mu : m \isn't a GRing.unit.
Definition I0 : pred R := fun x => q_rem (R := O) quorem m x == 0.
Lemma I0_0 : I0 0. Proof. apply/q_zero. exists 0. by rewrite mulr0. Qed.
Lemma I0_B x y : I0 x -> I0 y -> I0 (x - y).
Proof. move=> /q_zero[c ->] /q_zero[d ->]. apply/q_zero. exists (c - d). by rewrite mulrBr. Qed.
Lemma I0_M a x : I0 x -> I0 (a * x).
Proof. move=> /q_zero[c ->]. apply/q_zero. exists (a * c). by rewrite mulrCA. Qed.
Lemma I0_1 : ~~ I0 1.
Proof. apply/negP => /q_zero[c H]. move/negP: mu; apply. apply/unitrP. exists c. by rewrite mulrC -H. Qed.
Lemma quot_hom : exists (K : comRingType) (phi : {rmorphism R -> K}), ops_hom Q (mc_ops K) phi /\ forall x, phi x = 0 <-> exists c, x = m * c.
Proof.
  exists (@QuotRing.K R I0 I0_0 I0_B I0_M I0_1), (RMorphism (@phi_rm R I0 I0_0 I0_B I0_M I0_1)).
  set f := RMorphism _. have K0 : forall x, f x = 0 <-> exists c, x = m * c.
  { move=> x. rewrite -q_zero. have := phiE I0_0 I0_B I0_M I0_1 x. rewrite /I0 => <-. by split=> /eqP. }
  have KE : forall x y, (exists c, x = y + m * c) -> f x = f y.
  { move=> x y [c ->]. rewrite rmorphD. have -> : f (m * c) = 0 by apply/K0; exists c. exact: addr0. }
  split=> //. split=> /=.
  - move=> x y. transitivity (I0 (x - y)); first by []. rewrite -(phiE I0_0 I0_B I0_M I0_1) -[RHS]subr_eq0. by rewrite -(rmorphB f).
  - exact: (rmorph0 f).
  - exact: (rmorph1 f).
  - move=> x y. rewrite -(rmorphD f). apply: KE. exact: q_remE.
  - move=> x y. rewrite -(rmorphM f). apply: KE. exact: q_remE.
  - move=> x. exact: (rmorphN f).
Qed.
Lemma cong_hom (K : comRingType) (phi : {rmorphism R -> K}) : (forall x, phi x = 0 <-> exists c, x = m * c) ->
  forall P S, cong m P S <-> map_poly phi P = map_poly phi S.
Proof.
  move=> H P S. split=> [C|C k].
  - apply/polyP => k. rewrite !coef_map /=. have [c Hc] := C k. apply/eqP. rewrite -subr_eq0 -rmorphB. apply/eqP/H. by exists c.
  - have /polyP /(_ k) := C. rewrite !coef_map /= => /eqP. rewrite -subr_eq0 -rmorphB => /eqP /H[c Hc]. by exists c.
Qed.
Notation PQ := (poly_ops Q).
(* the operations of Polynomial<QuotientStructure> *)
Lemma Q_equal (a b : seq R) : @p_equal Q a b <-> cong m (Poly a) (Poly b).
Proof.
  have [K [phi [H K0]]] := quot_hom. rewrite (hom_equal _ H) p_equalE !Poly_map. split.
  - by move/eqP/(cong_hom K0).
  - by move/(cong_hom K0)/eqP.
Qed.
Lemma Q_is_zero (a : seq R) : @p_is_zero Q a <-> cong m (Poly a) 0.
Proof. exact: Q_equal. Qed.
Lemma Q_add (a b : seq R) : cong m (Poly (@p_add Q a b)) (Poly a + Poly b).
Proof. have [K [phi [H K0]]] := quot_hom. apply/(cong_hom K0). by rewrite -Poly_map (hom_p_add _ H) p_addE Poly_polyseq !Poly_map rmorphD. Qed.
Lemma Q_mul (a b : seq R) : cong m (Poly (@p_mul Q a b)) (Poly a * Poly b).
Proof. have [K [phi [H K0]]] := quot_hom. apply/(cong_hom K0). by rewrite -Poly_map (hom_p_mul _ H) p_mulE Poly_polyseq !Poly_map rmorphM. Qed.
Lemma Q_neg (a : seq R) : cong m (Poly (@p_neg Q a)) (- Poly a).
Proof. rewrite -[@p_neg Q a]/(@p_neg O a) p_negE. exact: cong_refl. Qed.
Lemma Q_sum3 (a b c : seq R) : cong m (Poly (@sum PQ [:: a; b; c])) (Poly a + Poly b + Poly c).
Proof.
  cbn [sum List.fold_left]. apply: cong_trans (Q_add _ _) _. apply: cong_add; last exact: cong_refl.
  apply: cong_trans (Q_add _ _) _. apply: cong_add; last exact: cong_refl.
  apply: cong_trans (Q_add _ _) _. rewrite -[@r0 PQ]/([::] : seq R) [Poly [::]]/= add0r. exact: cong_refl.
Qed.
Lemma Q_product (l : seq (seq R)) : cong m (Poly (@product PQ l)) (\prod_(f <- l) Poly f).
Proof.
  rewrite /product. have L : forall s, cong m (Poly (List.fold_left (@rmul PQ) l s)) (Poly s * \prod_(f <- l) Poly f).
  { elim: l => [|x l IH] s; first by rewrite big_nil mulr1; exact: cong_refl. cbn [List.fold_left]. apply: cong_trans (IH _) _.
    rewrite big_cons mulrA. apply: cong_mul; [exact: Q_mul|exact: cong_refl]. }
  apply: cong_trans (L _) _. rewrite -[@r1 PQ]/([:: (1:R)]) Poly1 mul1r. exact: cong_refl.
Qed.
(* cancellation of a monic polynomial modulo m *)
Lemma monic_cong0 (q G S : {poly R}) : G \is monic -> (size S < size G)%N -> cong m (q * G) S -> cong m q 0 /\ cong m S 0.
Proof.
  move=> MG Hs. have [K [phi [H K0]]] := quot_hom. move/(cong_hom K0). rewrite rmorphM /= => Eq.
  have MG' : map_poly phi G \is monic by exact: monic_map.
  have SG : size (map_poly phi G) = size G. { apply: size_map_poly_id0. by rewrite (monicP MG) rmorph1 oner_eq0. }
  have q0 : map_poly phi q = 0.
  { apply/eqP. apply/negP => /negP q0. have := size_Mmonic q0 MG'. rewrite Eq SG. have := size_poly (size S) (fun i => phi S`_i).
    rewrite -/(map_poly phi S). have : (0 < size (map_poly phi q))%N by rewrite size_poly_gt0. move: Hs. set x := size _. set y := size _. set z := size _. set t := size _. lia. }
  split; apply/(cong_hom K0); rewrite rmorph0 //. by rewrite -Eq q0 mul0r.
Qed.
End Mod.
End Q.
