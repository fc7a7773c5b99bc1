(* xgcd of polynomials over the quotient field *)
From Coq Require Import List Arith NArith Bool.
From mathcomp Require Import all_ssreflect all_algebra.
From mathcomp Require Import zify.
From Coq Require Import Lia Ring.
From Verif Require Import RingSpec RingModel RingProofs RingProofs2 PermModel MatModel MatSpec MatInst PolyModel PolyProofs PolyProofs2 PolyProofs3 PolyProps PolyHom McRing QuotRing HenselSpec HenselModel HenselProofs HenselProofs2.
Close Scope rs_scope.
Set Implicit Arguments.
Unset Strict Implicit.
Unset Printing Implicit Defensive.
Import GRing.Theory.
Local Open Scope ring_scope.

(* over a field *)
Section Fld.
Variable K : fieldType.
Notation O := (mc_ops [comRingType of K]).
Lemma p_xgcd_field (x y : seq K) : exists g a b, @p_xgcd O (@Fdiv K) x y = Some (g, a, b) /\
  (Poly g = Poly a * Poly x + Poly b * Poly y /\ (coprimep (Poly x) (Poly y) -> Poly g = 1)).
Proof.
  rewrite /p_xgcd. set P := poly_ops O.
  have Hf : (nrm P (@p_norm O) y < hfuel (A := P) (@p_norm O) y)%coq_nat by rewrite /nrm /hfuel; case: (@p_norm O y) => [n|]; lia.
  have PD := poly_idom (Fidom K). have PF := poly_ffa (Fidom K) (Fffa_ok K). have PE := poly_euclid (Fidom K) (@Fdiv_total K).
  have [g [a [b [H1 [_ [[[c /p_equalP Hx] [[d /p_equalP Hy] _]] [/p_equalP Hg /p_equalP Hb]]]]]]] := euclidean_xgcd_ok P (poly_ring _) _ PD _ PF _ _ PE _ x y Hf.
  have Eb : Poly g = Poly a * Poly x + Poly b * Poly y by rewrite Hb /= p_addE Poly_polyseq !p_mulE !Poly_polyseq.
  exists g, a, b. split; first exact: H1. split=> // C.
  have U : @runit P g.
  { have /coprimepP /(_ (Poly g)) := C. rewrite Hx Hy /= !p_mulE !Poly_polyseq => /(_ (dvdp_mulr _ (dvdpp _)) (dvdp_mulr _ (dvdpp _))).
    rewrite -size_poly_eq1 => /size_poly1P [u u0 Eu]. apply/punitE. exists u => //. by rewrite unitfE. }
  have /p_equalP := ffa_of_unit _ _ PF g U. rewrite Hg => ->. by rewrite -[@r1 _]/([:: (1:K)]) Poly1.
Qed.
End Fld.

Section Q.
Variable R : idomainType.
Notation O := (mc_ops R).
Variables (div : div_op O) (ffa : ffa_op O) (norm : R -> option N) (quorem : R -> R -> option (R * R)).
Hypothesis D : idom_laws O div.
Hypothesis F : ffa_laws O ffa.
Hypothesis E : euclid_laws O norm quorem.
Hypothesis M : norm_mono O norm.
Variable p : R.
Hypothesis Hirr : @irreducible O p.
Notation Q := (@quotient_ops O quorem p).
Lemma p0 : p != 0. Proof. case: Hirr => H _. exact: negbT. Qed.
Lemma pu : p \isn't a GRing.unit. Proof. case: Hirr => _ [H _]. apply/negP => U. apply: H. exact/runitE. Qed.
Let I0 := I0 quorem p.
Lemma comax_p x : ~ (exists c, x = p * c) -> comax x p.
Proof.
  move=> H. have Hf : (nrm O norm p < S (nrm O norm p))%coq_nat by lia.
  have [g [a [b [_ [_ [[/rdvdE[c Hx] [/rdvdE[d Hy] _]] [_ /eqP /= Hb]]]]]]] := euclidean_xgcd_ok O (mc_ring R) div D ffa F norm quorem E _ x p Hf.
  case: Hirr => _ [_ /(_ g d)] []; first by apply/eqP.
  - move=> /runitE U. exists (g^-1 * a), (g^-1 * b). by rewrite -!mulrA -mulrDr -Hb mulVr.
  - move=> /runitE U. case: H. exists (d^-1 * c). by rewrite mulrA Hy mulrK // Hx.
Qed.
Lemma FI x : ~~ I0 x -> exists y, I0 (y * x - 1).
Proof.
  move=> H. have [|u [v Huv]] := @comax_p x; first by move/(q_zero D E M p0); move/negP: H.
  exists u. apply/(q_zero D E M p0). exists (- v). apply/eqP. by rewrite subr_eq mulrN -Huv [p * v]mulrC addrC addrK.
Qed.
Lemma quot_field : exists (K : fieldType) (phi : {rmorphism R -> K}),
  [/\ ops_hom Q (mc_ops [comRingType of K]) phi, forall x, phi x = 0 <-> exists c, x = p * c & forall y, exists x, phi x = y].
Proof.
  exists (KF (I0_0 D E M p0) (I0_B D E M p0) (I0_M D E M p0) (I0_1 D E M p0 pu) FI).
  have := @phi_rm R I0 (I0_0 D E M p0) (I0_B D E M p0) (I0_M D E M p0) (I0_1 D E M p0 pu).
  have phE := phiE (I0_0 D E M p0) (I0_B D E M p0) (I0_M D E M p0) (I0_1 D E M p0 pu).
  have phS := @phi_surj R I0 (I0_0 D E M p0) (I0_B D E M p0) (I0_M D E M p0) (I0_1 D E M p0 pu).
  move=> rmo. exists (RMorphism rmo). set f := RMorphism rmo.
  have K0 : forall x, f x = 0 <-> exists c, x = p * c.
  { move=> x. rewrite -(q_zero D E M p0). have := phE x. rewrite /I0 /HenselProofs.I0 => <-. by split=> /eqP. }
  have KE : forall x y, (exists c, x = y + p * c) -> f x = f y.
  { move=> x y [c ->]. rewrite rmorphD. have -> : f (p * c) = 0 by apply/K0; exists c. exact: addr0. }
  split=> //. split=> /=.
  - move=> x y. transitivity (HenselProofs.I0 quorem p (x - y)); first by []. rewrite -phE -[RHS]subr_eq0. by rewrite -(rmorphB f).
  - exact: (rmorph0 f).
  - exact: (rmorph1 f).
  - move=> x y. rewrite -(rmorphD f). apply: KE. exact: (q_remE D E M p0).
  - move=> x y. rewrite -(rmorphM f). apply: KE. exact: (q_remE D E M p0).
  - move=> x. exact: (rmorphN f).
Qed.
Section H.
Variables (K : fieldType) (phi : {rmorphism R -> K}).
Notation OK := (mc_ops [comRingType of K]).
Hypothesis H : ops_hom Q OK phi.
Hypothesis K0 : forall x, phi x = 0 <-> exists c, x = p * c.
Lemma hom_qdiv x y : dmap phi (@h_qdiv O div ffa norm quorem p x y) = @Fdiv K (phi x) (phi y).
Proof.
  rewrite /h_qdiv /Fdiv. have Hf : (nrm O norm p < hfuel (A := O) norm p)%coq_nat by rewrite /nrm /hfuel; case: (norm p) => [n|]; lia.
  have [r [-> Hr]] := quotient_div_spec O div ffa norm quorem D F E p (Hm p0) M _ x y Hf Hirr.
  case: r Hr => [c [/rdvdE Hn /rdvdE Hc]|/rdvdE Hy|//] /=.
  - have Hy : phi y != 0 by apply/eqP => /K0. rewrite (negbTE Hy). congr DivOk. apply/eqP. rewrite eq_sym -(inj_eq (mulIf Hy)) divfK //.
    rewrite -subr_eq0 -rmorphM -rmorphB. apply/eqP/K0. exact: Hc.
  - by have /K0 -> := Hy; rewrite eqxx.
Qed.
Lemma hom_ffa x : (phi (fst (@field_ffa Q x)), phi (snd (@field_ffa Q x))) = @field_ffa OK (phi x).
Proof.
  rewrite /field_ffa -(@hom_is_zero Q OK phi H). case: is_zero; cbn [fst snd]; congr pair; [exact: (h_1 _ _ _ H)|exact: (h_0 _ _ _ H)|exact: (h_1 _ _ _ H)].
Qed.
Notation MP := (List.map phi).
Lemma hom_p_xgcd (x y : seq R) : option_map (fun g => (MP (fst (fst g)), MP (snd (fst g)), MP (snd g))) (@p_xgcd Q (@h_qdiv O div ffa norm quorem p) x y) =
  @p_xgcd OK (@Fdiv K) (MP x) (MP y).
Proof.
  rewrite /p_xgcd. have HP := @hom_poly Q OK phi H. rewrite (@hom_euclidean_xgcd _ _ _ HP _ (pdivT (@Fdiv K)) _ (pffaT (@Fdiv K) (@field_ffa OK)) _ (pquoremT (@Fdiv K))).
  - rewrite /hfuel. have -> // : @p_norm Q y = @p_norm OK (MP y). by rewrite /p_norm (@hom_degree Q OK phi H).
  - move=> a b. rewrite /pdivT. have := @hom_p_div Q OK phi H _ _ hom_qdiv a b. case: p_div => [r|] /= <- //.
  - move=> a. rewrite /pffaT. have := @hom_p_ffa Q OK phi H _ _ hom_qdiv _ _ hom_ffa a. case: p_factor_fav_assoc => [[u v]|] /= <- //.
  - move=> a b. rewrite /pquoremT. have := @hom_p_quorem Q OK phi H _ _ hom_qdiv a b. case: p_quorem => [[[q r]|]|] /= <- //.
Qed.
End H.
Lemma p_xgcd_ok (x y : seq R) : coprime_mod p (Poly x) (Poly y) ->
  exists u a b, [/\ @p_xgcd Q (@h_qdiv O div ffa norm quorem p) x y = Some (u, a, b), @p_equal Q u (@p_one Q) & cong p (Poly a * Poly x + Poly b * Poly y) 1].
Proof.
  have [K [phi [H K0 _]]] := quot_field. case=> U [V /(cong_hom K0) C].
  have [g [a [b [H1 [H2 H3]]]]] := p_xgcd_field (List.map phi x) (List.map phi y).
  have := hom_p_xgcd H K0 x y. case: p_xgcd => [[[u a'] b']|] /= Eq; last by rewrite -Eq in H1. rewrite -Eq in H1. case: H1 => Eg Ea Eb.
  have C' : coprimep (Poly (List.map phi x)) (Poly (List.map phi y)).
  { apply/Bezout_eq1_coprimepP. exists (map_poly phi U, map_poly phi V) => /=. move: C. by rewrite !Poly_map rmorphD !rmorphM rmorph1. }
  have G1 := H3 C'. exists u, a', b'. split=> //.
  - apply/(Q_equal D E M p0 pu). apply/(cong_hom K0). rewrite -!Poly_map Eg G1. by rewrite -[List.map _ _]/[:: phi 1] Poly1 rmorph1.
  - apply/(cong_hom K0). rewrite rmorphD !rmorphM rmorph1 /= -!Poly_map Ea Eb. by rewrite -H2.
Qed.
(* coprimality of products *)
Lemma coprime_modE (K : fieldType) (phi : {rmorphism R -> K}) : (forall x, phi x = 0 <-> exists c, x = p * c) -> (forall y, exists x, phi x = y) ->
  forall X Y, coprime_mod p X Y <-> coprimep (map_poly phi X) (map_poly phi Y).
Proof.
  move=> K0 S X Y. split.
  - case=> U [V /(cong_hom K0) C]. apply/Bezout_eq1_coprimepP. exists (map_poly phi U, map_poly phi V) => /=. move: C. by rewrite rmorphD !rmorphM rmorph1.
  - have SP : forall Z : {poly K}, exists Z', map_poly phi Z' = Z.
    { move=> Z. elim/poly_ind: Z => [|Z c [Z' <-]]; first by exists 0; rewrite rmorph0. have [c' <-] := S c.
      exists (Z' * 'X + c'%:P). by rewrite rmorphD rmorphM /= map_polyX map_polyC. }
    move/Bezout_eq1_coprimepP => [[U V] /= EUV]. have [U' EU] := SP U. have [V' EV] := SP V. exists U', V'. apply/(cong_hom K0).
    by rewrite rmorphD !rmorphM rmorph1 /= EU EV.
Qed.
Lemma coprime_mod_prod (I J : Type) (r : seq I) (s : seq J) (f : I -> {poly R}) (g : J -> {poly R}) :
  (forall i j, List.In i r -> List.In j s -> coprime_mod p (f i) (g j)) -> coprime_mod p (\prod_(i <- r) f i) (\prod_(j <- s) g j).
Proof.
  have [K [phi [H K0 S]]] := quot_field. move=> C. apply/(coprime_modE K0 S). rewrite !rmorph_prod.
  elim: r C => [|i r IH] C; first by rewrite big_nil coprime1p. rewrite big_cons coprimepMl IH ?andbT; last by move=> i' j Hi; apply: C; right.
  elim: s C {IH} => [|j s IH] C; first by rewrite big_nil coprimep1. rewrite big_cons coprimepMr IH ?andbT; last by move=> i' j' Hi Hj; apply: C => //; right.
  apply/(coprime_modE K0 S). apply: C; by left.
Qed.
End Q.
